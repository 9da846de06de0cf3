(** Lemmas about the texts. *)
From Coq Require Import String Ascii List Bool Arith Lia.
From Verif Require Import Base Texts_Model Texts_Spec.
Import ListNotations.
Local Open Scope string_scope.

Lemma app_nil_s s : s ++ "" = s.
Proof. induction s as [|c r IH]; cbn; [reflexivity|now rewrite IH]. Qed.
Lemma app_assoc_s a b c : (a ++ b) ++ c = a ++ b ++ c.
Proof. induction a as [|x a IH]; cbn; [reflexivity|now rewrite IH]. Qed.
Lemma app_inj_s a b c : a ++ b = a ++ c -> b = c.
Proof. induction a as [|x a IH]; cbn; [auto|]. intros E. injection E. auto. Qed.
Lemma length_app_s a b : String.length (a ++ b) = String.length a + String.length b.
Proof. induction a as [|x a IH]; cbn; [reflexivity|now rewrite IH]. Qed.
Lemma spaces_blanks n : spaces n = blanks n.
Proof. induction n as [|n IH]; cbn; [reflexivity|now rewrite IH]. Qed.

(** Lines one after the other. *)
Definition block (ls : list string) : string := String.concat "" (map (fun l => l ++ nl) ls).
Lemma block_cons l ls : block (l :: ls) = l ++ nl ++ block ls.
Proof. unfold block. cbn [map]. destruct ls as [|m r]; cbn [map String.concat]; [rewrite app_nil_s; reflexivity|]. rewrite app_assoc_s. reflexivity. Qed.
Lemma block_app a b : block (a ++ b)%list = block a ++ block b.
Proof. induction a as [|x a IH]; [reflexivity|]. cbn [app]. rewrite !block_cons, IH, !app_assoc_s. reflexivity. Qed.
Lemma block_concat l ls : block (l :: ls) = String.concat nl (l :: ls) ++ nl.
Proof.
  revert l. induction ls as [|m r IH]; intros l; [rewrite block_cons; cbn; rewrite ?app_nil_s; reflexivity|]. rewrite block_cons, IH.
  change (String.concat nl (l :: m :: r)) with (l ++ nl ++ String.concat nl (m :: r)). rewrite !app_assoc_s. reflexivity.
Qed.
Lemma substring_all s t : substring 0 (String.length s) (s ++ t) = s.
Proof. induction s as [|c r IH]; cbn; [destruct t; reflexivity|]. rewrite IH. reflexivity. Qed.
Lemma chop ls : (if Nat.ltb 0 (String.length (block ls)) then substring 0 (String.length (block ls) - 1) (block ls) else block ls) = String.concat nl ls.
Proof.
  destruct ls as [|l ls]; [reflexivity|]. rewrite block_concat, length_app_s. cbn [nl String.length]. replace (Nat.ltb 0 (String.length (String.concat nl (l :: ls)) + 1)) with true by (symmetry; apply Nat.ltb_lt; lia).
  replace (String.length (String.concat nl (l :: ls)) + 1 - 1) with (String.length (String.concat nl (l :: ls))) by lia. apply substring_all.
Qed.

(** The code writes the lines of the items. *)
Lemma levels o : let i := ComputeIndentLevels o in
  2 * count [include_road_geometry_id o] = i_junction i * 2 /\ 2 * count [include_road_geometry_id o; include_junction_ids o] = i_segment i * 2 /\ 2 * count (above_lane o) = i_lane i * 2.
Proof. destruct o as [a b c d e f]. unfold ComputeIndentLevels, above_lane, count. cbn [include_road_geometry_id include_junction_ids include_segment_ids]. destruct b, c, d; cbn; auto. Qed.
Definition lines (o : options) (l : list item) : list string := map (line o) l.
Lemma blanks_add n m : blanks (n + m) = blanks n ++ blanks m.
Proof. induction n as [|n IH]; cbn; [reflexivity|now rewrite IH]. Qed.
Lemma put_lane_lines o r l : put_lane o (GetIndent (i_lane (ComputeIndentLevels o))) r l = r ++ block (lines o (lane_items o l)).
Proof.
  destruct (levels o) as (_ & _ & E). unfold put_lane, lane_items, GetIndent, lines. rewrite <- E.
  destruct (include_lane_details o); cbn [if_asked map]; rewrite !block_cons; unfold line; cbn [indentation label payload]; rewrite ?spaces_blanks, ?blanks_add; destruct (include_type_labels o); rewrite ?app_assoc_s; unfold or_none; reflexivity.
Qed.
Lemma put_lanes o ls : forall r, fold_left (put_lane o (GetIndent (i_lane (ComputeIndentLevels o)))) ls r = r ++ block (lines o (flat_map (lane_items o) ls)).
Proof.
  induction ls as [|l ls IH]; intros r; cbn [fold_left flat_map]; [symmetry; apply app_nil_s|]. rewrite IH, put_lane_lines. unfold lines. rewrite map_app, block_app, app_assoc_s. reflexivity.
Qed.
Lemma line_ids o t : line o (Segment t) = blanks (2 * count [include_road_geometry_id o; include_junction_ids o]) ++ (if include_type_labels o then "segment: " else "") ++ t /\
  line o (Junction t) = blanks (2 * count [include_road_geometry_id o]) ++ (if include_type_labels o then "junction: " else "") ++ t.
Proof. unfold line. rewrite !spaces_blanks. split; reflexivity. Qed.
Lemma put_segment_lines o r s : put_segment o (ComputeIndentLevels o) r s = r ++ block (lines o (segment_items o s)).
Proof.
  destruct (levels o) as (_ & E & _). unfold put_segment, segment_items. rewrite put_lanes. unfold GetIndent, lines. rewrite <- E.
  destruct (include_segment_ids o), (include_lane_ids o); cbn [if_asked app map]; rewrite ?block_cons, ?(proj1 (line_ids o _)); destruct (include_type_labels o); rewrite ?app_assoc_s; try reflexivity; symmetry; apply app_nil_s.
Qed.
Lemma put_segments o l : forall r, fold_left (put_segment o (ComputeIndentLevels o)) l r = r ++ block (lines o (flat_map (segment_items o) l)).
Proof.
  induction l as [|s l IH]; intros r; cbn [fold_left flat_map]; [symmetry; apply app_nil_s|]. rewrite IH, put_segment_lines. unfold lines. rewrite map_app, block_app, app_assoc_s. reflexivity.
Qed.
Lemma put_junctions o l : forall r, fold_left (put_junction o (ComputeIndentLevels o)) l r = r ++ block (lines o (flat_map (junction_items o) (present l))).
Proof.
  induction l as [|[j|] l IH]; intros r; cbn [fold_left present flat_map app]; [symmetry; apply app_nil_s| |apply IH]. fold (present l). rewrite IH. unfold put_junction. rewrite put_segments. destruct (levels o) as (E & _ & _). unfold junction_items, GetIndent. rewrite <- E.
  unfold lines. rewrite !map_app, !block_app.
  destruct (include_junction_ids o); cbn [if_asked app map]; rewrite ?block_cons, ?(proj2 (line_ids o _)); destruct (include_type_labels o); rewrite ?app_assoc_s; reflexivity.
Qed.
Lemma text_lines g o : GenerateString g o = String.concat nl (lines o (shown o g)).
Proof.
  unfold GenerateString, shown. rewrite put_junctions. cbv zeta. rewrite <- chop. unfold lines. rewrite map_app, block_app.
  replace (if include_road_geometry_id o then (if include_type_labels o then "" ++ "geometry: " else "") ++ g_id g ++ nl else "") with (block (map (line o) (if_asked (include_road_geometry_id o) [Geometry (g_id g)]))); [reflexivity|].
  destruct (include_road_geometry_id o); [|reflexivity]. cbn [if_asked map]. rewrite block_cons. unfold line. cbn [indentation label payload spaces]. destruct (include_type_labels o); rewrite ?app_assoc_s; reflexivity.
Qed.

(** Reading the lines back. *)
Fixpoint split (c : ascii) (s : string) : string * string :=
  match s with
  | EmptyString => (EmptyString, EmptyString)
  | String d r => if Ascii.eqb d c then (EmptyString, r) else let '(a, b) := split c r in (String d a, b)
  end.
Lemma split_app c a b : has c a = false -> split c (a ++ String c b) = (a, b).
Proof. induction a as [|d a IH]; cbn; [now rewrite Ascii.eqb_refl|]. intros H. apply orb_false_elim in H. destruct H as [H1 H2]. rewrite H1, (IH H2). reflexivity. Qed.
Lemma split_inj c a b a' b' : has c a = false -> has c a' = false -> a ++ String c b = a' ++ String c b' -> a = a' /\ b = b'.
Proof. intros H H' E. apply (f_equal (split c)) in E. rewrite !split_app in E by auto. injection E. auto. Qed.
Lemma has_app c a b : has c (a ++ b) = has c a || has c b.
Proof. induction a as [|d a IH]; cbn; [reflexivity|]. rewrite IH, orb_assoc. reflexivity. Qed.
Lemma block_inj a : forall b, Forall one_line a -> Forall one_line b -> block a = block b -> a = b.
Proof.
  induction a as [|x a IH]; intros [|y b] A B E; [reflexivity|exfalso..|].
  - rewrite block_cons in E. destruct y; discriminate.
  - rewrite block_cons in E. destruct x; discriminate.
  - rewrite !block_cons in E. inversion A; subst. inversion B; subst. change (nl ++ block a) with (String "010" (block a)) in E. change (nl ++ block b) with (String "010" (block b)) in E.
    apply split_inj in E; auto. destruct E as [-> E]. f_equal. apply IH; auto.
Qed.
Lemma concat_inj a b : Forall one_line a -> Forall one_line b -> Forall (fun l => l <> "") a -> Forall (fun l => l <> "") b -> String.concat nl a = String.concat nl b -> a = b.
Proof.
  intros A B A' B' E. assert (N : forall x l, x <> "" -> String.concat nl (x :: l) <> "") by (intros [|c x] [|y l] H; [congruence|congruence|cbn; discriminate..]).
  destruct a as [|x a], b as [|y b]; [reflexivity| | |].
  - inversion B'; subst. symmetry in E. apply N in E; tauto.
  - inversion A'; subst. apply N in E; tauto.
  - apply block_inj; auto. rewrite !block_concat, E. reflexivity.
Qed.

(** Reading one line back. *)
Fixpoint lead (s : string) : nat * string :=
  match s with String c r => if Ascii.eqb c " " then let '(n, t) := lead r in (S n, t) else (0, s) | EmptyString => (0, s) end.
Lemma lead_spaces n s : lead (spaces n ++ s) = (n + fst (lead s), snd (lead s)).
Proof. induction n as [|n IH]; cbn; [destruct (lead s); reflexivity|]. rewrite IH. reflexivity. Qed.
Fixpoint after (w s : string) : option string :=
  match w, s with
  | EmptyString, _ => Some s
  | String c w', String d s' => if Ascii.eqb c d then after w' s' else None
  | _, EmptyString => None
  end.
Definition words : list (string * (string -> item)) :=
  [("geometry: ", Geometry); ("junction: ", Junction); ("segment: ", Segment); ("lane: ", Lane); ("length: ", Length); ("geo positions:", fun _ => Places);
   ("s_min: ", Begins); ("s_max: ", Ends); ("to left: ", LeftOf); ("to right: ", RightOf)].
Fixpoint word_item (l : list (string * (string -> item))) (s : string) : option item :=
  match l with [] => None | (w, f) :: r => match after w s with Some t => Some (f t) | None => word_item r s end end.
Definition decode (o : options) (s : string) : option item :=
  let '(n, t) := lead s in
  if include_type_labels o then word_item words t
  else if Nat.ltb (2 * count (above_lane o)) n then word_item words t
  else if include_road_geometry_id o && Nat.eqb n 0 then Some (Geometry t)
  else if include_junction_ids o && Nat.eqb n (2 * count [include_road_geometry_id o]) then Some (Junction t)
  else if include_segment_ids o && Nat.eqb n (2 * count [include_road_geometry_id o; include_junction_ids o]) then Some (Segment t)
  else Some (Lane t).
(** Items that the options ask for. *)
Definition asked (o : options) (i : item) : bool :=
  match i with
  | Geometry _ => include_road_geometry_id o | Junction _ => include_junction_ids o | Segment _ => include_segment_ids o | _ => true
  end.
Lemma lead_plain s : plain_id s -> lead s = (0, s).
Proof. destruct s as [|c r]; [intros []|]. cbn [plain_id lead]. intros H. destruct (Ascii.eqb_spec c " "); [congruence|reflexivity]. Qed.
Lemma decode_line o i : asked o i = true -> clean o i -> decode o (line o i) = Some i.
Proof.
  intros A [_ P]. unfold decode, line. rewrite lead_spaces. destruct o as [tl ig ij is il id]. unfold above_lane, count in *. cbn [include_type_labels include_road_geometry_id include_junction_ids include_segment_ids asked] in *.
  destruct tl; [destruct i; reflexivity|]. specialize (P eq_refl).
  destruct i as [t|t|t|t|t| |t|t|t|t]; cbn [label indentation payload is_id include_type_labels asked] in *; try (specialize (P I); cbn [append]; rewrite (lead_plain t P); cbn [fst snd]); cbn in A; destruct ig, ij, is; try discriminate A; reflexivity.
Qed.
Lemma shown_asked o g i : In i (shown o g) -> asked o i = true.
Proof.
  unfold shown. intros H. apply in_app_or in H. destruct H as [H|H]; [destruct (include_road_geometry_id o) eqn:E; [|destruct H]; destruct H as [<-|[]]; exact E|].
  apply in_flat_map in H. destruct H as (j & _ & H). apply in_app_or in H. destruct H as [H|H]; [destruct (include_junction_ids o) eqn:E; [|destruct H]; destruct H as [<-|[]]; exact E|].
  apply in_flat_map in H. destruct H as (s & _ & H). apply in_app_or in H. destruct H as [H|H]; [destruct (include_segment_ids o) eqn:E; [|destruct H]; destruct H as [<-|[]]; exact E|].
  destruct (include_lane_ids o); [|destruct H]. cbn [if_asked] in H. apply in_flat_map in H. destruct H as (l & _ & H). unfold lane_items in H. cbn [In] in H. destruct H as [<-|H]; [reflexivity|].
  destruct (include_lane_details o); [|destruct H]. cbn [if_asked In] in H. repeat (destruct H as [<-|H]; [reflexivity|]). destruct H.
Qed.
Lemma line_one o i : clean o i -> one_line (line o i).
Proof.
  intros [C _]. unfold one_line, line in *. rewrite !has_app, C. assert (S : forall n, has "010" (spaces n) = false) by (induction n; auto). rewrite S. destruct i; cbn [label]; try destruct (include_type_labels o); reflexivity.
Qed.
Lemma line_some o i : clean o i -> line o i <> "".
Proof.
  intros [_ P] E. unfold line in E. destruct (spaces (indentation o i)); [|discriminate]. cbn [append] in E.
  destruct i; cbn [label payload is_id] in *; try discriminate; destruct (include_type_labels o); try discriminate; specialize (P eq_refl I); cbn in E; rewrite E in P; exact P.
Qed.
Lemma items_determined o g g' : clean_text o g -> clean_text o g' -> GenerateString g o = GenerateString g' o -> shown o g = shown o g'.
Proof.
  intros C C' E. rewrite !text_lines in E. apply concat_inj in E.
  - assert (X : forall l, (forall i, In i l -> asked o i = true /\ clean o i) -> map (decode o) (lines o l) = map Some l).
    { intros l H. unfold lines. rewrite map_map. apply map_ext_in. intros i Hi. destruct (H i Hi). apply decode_line; auto. }
    apply (f_equal (map (decode o))) in E. rewrite !X in E by (intros i Hi; split; [eapply shown_asked; eauto|auto]).
    revert E. generalize (shown o g') as b. generalize (shown o g) as a. induction a as [|x a IH]; intros [|y b] E; try discriminate; [reflexivity|]. injection E as -> E. f_equal. apply IH, E.
  - apply Forall_forall. intros s Hs. apply in_map_iff in Hs. destruct Hs as (i & <- & Hi). apply line_one, C, Hi.
  - apply Forall_forall. intros s Hs. apply in_map_iff in Hs. destruct Hs as (i & <- & Hi). apply line_one, C', Hi.
  - apply Forall_forall. intros s Hs. apply in_map_iff in Hs. destruct Hs as (i & <- & Hi). apply line_some, C, Hi.
  - apply Forall_forall. intros s Hs. apply in_map_iff in Hs. destruct Hs as (i & <- & Hi). apply line_some, C', Hi.
Qed.

(** The items determine the tree. *)
Definition rank (i : item) : nat := match i with Geometry _ => 0 | Junction _ => 1 | Segment _ => 2 | Lane _ => 3 | _ => 4 end.
(** Cut before the next item of rank at most n. *)
Fixpoint upto (n : nat) (l : list item) : list item := match l with [] => [] | i :: r => if Nat.leb (rank i) n then [] else i :: upto n r end.
Fixpoint rest (n : nat) (l : list item) : list item := match l with [] => [] | i :: r => if Nat.leb (rank i) n then l else rest n r end.
Definition starts (n : nat) (l : list item) : Prop := match l with [] => True | i :: _ => rank i <= n end.
Lemma cut n a r : Forall (fun i => n < rank i) a -> starts n r -> upto n (a ++ r) = a /\ rest n (a ++ r) = r.
Proof.
  intros A S. induction A as [|i a Hi A IH]; cbn [app].
  - destruct r as [|i r]; [auto|]. cbn [starts upto rest] in *. apply Nat.leb_le in S. rewrite S. auto.
  - cbn [upto rest]. destruct IH as [-> ->]. destruct (Nat.leb_spec (rank i) n); [lia|]. auto.
Qed.
Lemma cut_inj n a r a' r' : Forall (fun i => n < rank i) a -> Forall (fun i => n < rank i) a' -> starts n r -> starts n r' -> (a ++ r)%list = (a' ++ r')%list -> a = a' /\ r = r'.
Proof. intros A A' S S' E. destruct (cut n a r A S) as [X Y]. destruct (cut n a' r' A' S') as [X' Y']. rewrite E in X, Y. split; congruence. Qed.
Lemma forest {A} (n : nat) (items : A -> list item) (head : A -> item) (below : A -> list item) :
  (forall x, items x = head x :: below x) -> (forall x, rank (head x) = n) -> (forall x, Forall (fun i => n < rank i) (below x)) ->
  forall l l', flat_map items l = flat_map items l' -> map (fun x => (head x, below x)) l = map (fun x => (head x, below x)) l'.
Proof.
  intros I H B. assert (S : forall l, starts n (flat_map items l)) by (intros [|x l]; [exact Logic.I|]; cbn [flat_map]; rewrite I; cbn; rewrite H; lia).
  induction l as [|x l IH]; intros [|y l'] E; [reflexivity|exfalso..|].
  - cbn in E. rewrite I in E. discriminate.
  - cbn in E. rewrite I in E. discriminate.
  - cbn [flat_map] in E. rewrite !I in E. cbn [app] in E. injection E as Eh E. apply (cut_inj n) in E; auto. destruct E as [Eb E]. cbn [map]. rewrite Eh, Eb. f_equal. apply IH, E.
Qed.
Lemma map_pair {A B C} (f : A -> B) (g : B -> C) (l l' : list A) : map f l = map f l' -> map (fun x => g (f x)) l = map (fun x => g (f x)) l'.
Proof. intros E. rewrite <- !(map_map f g). now rewrite E. Qed.
Definition details_of (o : options) (l : lane) : list item := if_asked (include_lane_details o) [Length (l_length l); Places; Begins (l_min l); Ends (l_max l); LeftOf (or_none (l_left l)); RightOf (or_none (l_right l))].
Lemma details_rank o l : Forall (fun i => 3 < rank i) (details_of o l).
Proof. unfold details_of. destruct (include_lane_details o); cbn [if_asked]; repeat constructor. Qed.
Lemma lanes_rank o l : Forall (fun i => 2 < rank i) (flat_map (lane_items o) l).
Proof.
  induction l as [|x l IH]; [constructor|]. cbn [flat_map]. apply Forall_app. split; [|exact IH]. constructor; [cbn; lia|]. eapply Forall_impl; [|apply (details_rank o x)]. cbn. intros; lia.
Qed.
Lemma lanes_ids o l l' : flat_map (lane_items o) l = flat_map (lane_items o) l' -> map l_id l = map l_id l'.
Proof.
  intros E. apply (forest 3 (lane_items o) (fun x => Lane (l_id x)) (details_of o)) in E; auto using details_rank.
  apply (map_pair _ (fun p : item * list item => payload (fst p))) in E. exact E.
Qed.
Lemma tree_determined o g g' : all_ids o -> shown o g = shown o g' -> ids g = ids g'.
Proof.
  intros (A & B & C & D). unfold shown, ids. rewrite A. cbn [if_asked app]. intros E. injection E as -> E. f_equal.
  set (seg := fun s => (s_id s, map l_id (s_lanes s))).
  assert (SI : forall s, segment_items o s = Segment (s_id s) :: flat_map (lane_items o) (s_lanes s)) by (intros s; unfold segment_items; rewrite C, D; reflexivity).
  assert (SR : forall l, Forall (fun i => 1 < rank i) (flat_map (segment_items o) l)).
  { induction l as [|x l IH]; [constructor|]. cbn [flat_map]. apply Forall_app. split; [|exact IH]. rewrite SI. constructor; [cbn; lia|]. eapply Forall_impl; [|apply (lanes_rank o (s_lanes x))]. cbn. intros; lia. }
  assert (SS : forall l l', flat_map (segment_items o) l = flat_map (segment_items o) l' -> map seg l = map seg l').
  { intros l l' F. apply (forest 2 (segment_items o) (fun x => Segment (s_id x)) (fun s => flat_map (lane_items o) (s_lanes s))) in F; auto using lanes_rank.
    revert l' F. induction l as [|x l IH]; intros [|y l'] F; try discriminate; [reflexivity|]. cbn [map] in F. injection F as F1 F2 F3. cbn [map]. unfold seg at 1 3. rewrite F1, (lanes_ids o _ _ F2). f_equal. apply IH, F3. }
  apply (forest 1 (junction_items o) (fun j => Junction (j_id j)) (fun j => flat_map (segment_items o) (j_segments j))) in E; auto.
  2:{ intros j. unfold junction_items. rewrite B. reflexivity. }
  revert E. generalize (present (g_junctions g')) as l'. generalize (present (g_junctions g)) as l. induction l as [|x l IH]; intros [|y l'] F; try discriminate; [reflexivity|]. cbn [map] in F. injection F as F1 F2 F3. cbn [map]. rewrite F1, (SS _ _ F2). f_equal. apply IH, F3.
Qed.
