(** Models of UniqueBulbId and UniqueBulbGroupId: include/maliput/api/rules/traffic_lights.h
    401-509 and the specializations of std::less 515-555; include/maliput/api/unique_id.h.
    Ids are strings. *)
From Coq Require Import String Bool.
Local Open Scope string_scope.

(** The members of a UniqueBulbId, traffic_lights.h 446-448 (the string: [bulb_string]). *)
Record bulb_uid := mk_bulb_uid { bu_light : string; bu_group : string; bu_bulb : string }.
(** The members of a UniqueBulbGroupId, 501-502. *)
Record group_uid := mk_group_uid { gu_light : string; gu_group : string }.
(** delimiter(), src/maliput/api/rules/traffic_lights.cc 178 and 180. *)
Definition delimiter : string := "-".
(** UniqueBulbId::UniqueBulbId, 412-416: the string given to UniqueId. *)
Definition bulb_string (b : bulb_uid) : string := bu_light b ++ delimiter ++ bu_group b ++ delimiter ++ bu_bulb b.
(** UniqueBulbGroupId::UniqueBulbGroupId, 471-474. *)
Definition group_string (g : group_uid) : string := gu_light g ++ delimiter ++ gu_group g.
(** UniqueBulbId::operator==, 419-422. *)
Definition bulb_uid_eqb (a b : bulb_uid) : bool := (bu_light a =? bu_light b) && (bu_group a =? bu_group b) && (bu_bulb a =? bu_bulb b).
(** UniqueBulbGroupId::operator==, 477-479. *)
Definition group_uid_eqb (a b : group_uid) : bool := (gu_light a =? gu_light b) && (gu_group a =? gu_group b).
(** UniqueId::operator==, unique_id.h 56: what a comparison through the base class uses. *)
Definition uid_eqb (s t : string) : bool := s =? t.
(** The words given to the hasher: UniqueBulbId 430-435, UniqueBulbGroupId 491-495. *)
Definition bulb_hash_words (b : bulb_uid) : list string := bu_light b :: bu_group b :: bu_bulb b :: nil.
Definition group_hash_words (g : group_uid) : list string := gu_light g :: gu_group g :: nil.
(** std::less<UniqueBulbId>, 519-531. *)
Definition bulb_uid_less (a b : bulb_uid) : bool :=
  if bu_light a <? bu_light b then true else if bu_light b <? bu_light a then false
  else if bu_group a <? bu_group b then true else if bu_group b <? bu_group a then false
  else bu_bulb a <? bu_bulb b.
(** std::less<UniqueBulbGroupId>, 541-553. *)
Definition group_uid_less (a b : group_uid) : bool :=
  if gu_light a <? gu_light b then true else if gu_light b <? gu_light a then false
  else gu_group a <? gu_group b.
