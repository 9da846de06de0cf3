(** Vocabulary for the properties of unique ids. *)
From Coq Require Import String Ascii List.

(** The id does not contain the character the parts of a unique id are joined with. *)
Definition without_dash (s : string) : Prop := ~ In "-"%char (list_ascii_of_string s).
(** A strict total order, given as a boolean function. *)
Definition strict_total_order {A} (less : A -> A -> bool) : Prop :=
  (forall a, less a a = false) /\
  (forall a b c, less a b = true -> less b c = true -> less a c = true) /\
  (forall a b, less a b = true \/ a = b \/ less b a = true).
