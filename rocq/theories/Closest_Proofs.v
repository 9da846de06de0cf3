(** Proofs for C108. *)
From Coq Require Import List ZArith Lia Bool.
From Coq Require Import Floats.SpecFloat.
From Verif Require Import Base Binary64 Binary64_Round Binary64_Order Binary64_Ext Doubles_Model Closest_Model Closest_Spec.
Import ListNotations.
Local Open Scope Z_scope.

Lemma eps_double : is_double literal_eps.
Proof. split; vm_compute; reflexivity. Qed.
Lemma eps_about : about_1e12 (val literal_eps) /\ 0 < val literal_eps.
Proof. split; vm_compute; [discriminate|reflexivity]. Qed.

Lemma valid_cases x : valid x -> x = S754_nan \/ number x.
Proof. intros V. destruct x; [right|right|left|right]; try reflexivity; (split; [exact V|discriminate]). Qed.
Lemma fneg_number x : number x -> number (fneg x) /\ place (fneg x) = - place x.
Proof.
  intros N. destruct (number_cases x N) as [D|[->| ->]].
  - pose proof (fneg_double x D) as D'. destruct (double_number x D) as (_ & E & _), (double_number _ D') as (N' & E' & _). rewrite E, E', fneg_val. split; [exact N'|reflexivity].
  - split; [split; [reflexivity|discriminate]|reflexivity].
  - split; [split; [reflexivity|discriminate]|]. cbn [fneg SFopp negb place]. lia.
Qed.
Lemma cap_opp v : cap (- v) = - cap v.
Proof. unfold cap. pose proof top_pos. lia. Qed.
(** Differences in both directions. *)
Lemma fsub_both x y : valid x -> valid y ->
  (fsub x y = S754_nan /\ fsub y x = S754_nan) \/ (number (fsub x y) /\ number (fsub y x) /\ place (fsub y x) = - place (fsub x y)).
Proof.
  intros VX VY. destruct (valid_cases x VX) as [->|NX]; [left; split; [reflexivity|destruct y; reflexivity]|].
  destruct (valid_cases y VY) as [->|NY]; [left; split; [destruct x; reflexivity|reflexivity]|].
  assert (I : forall s, number (S754_infinity s)) by (intros s; split; [reflexivity|discriminate]).
  destruct (number_cases x NX) as [DX|DX], (number_cases y NY) as [DY|DY].
  - right. destruct (result_place _ _ (fsub_spec x y DX DY)) as (A & B), (result_place _ _ (fsub_spec y x DY DX)) as (C & D). split; [exact A|]. split; [exact C|].
    rewrite B, D. replace (val y - val x) with (- (val x - val y)) by lia. rewrite rnd_opp, cap_opp. reflexivity.
  - right. destruct DX as [_ FX]. destruct DY as [->| ->]; destruct x; try discriminate; (split; [apply I|split; [apply I|cbn [fsub SFsub negb place]; lia]]).
  - right. destruct DY as [_ FY]. destruct DX as [->| ->]; destruct y; try discriminate; (split; [apply I|split; [apply I|cbn [fsub SFsub negb place]; lia]]).
  - destruct DX as [->| ->], DY as [->| ->]; cbn [fsub SFsub Bool.eqb negb]; [left; split; reflexivity| | |left; split; reflexivity];
      right; (split; [apply I|split; [apply I|cbn [place]; lia]]).
Qed.
Lemma flt_asym x y : valid x -> valid y -> flt x y = true -> flt y x = false.
Proof.
  intros VX VY H. destruct (valid_cases x VX) as [->|NX]; [destruct y; discriminate|]. destruct (valid_cases y VY) as [->|NY]; [destruct x; discriminate|].
  apply flt_place in H; try assumption. destruct (flt y x) eqn:E; [|reflexivity]. apply flt_place in E; try assumption. lia.
Qed.
Lemma fabs_valid x : valid x -> valid (fabs x).
Proof. destruct x; intros V; exact V. Qed.

Lemma eps_facts : exists E, val literal_eps = E /\ 0 < E < top /\ repr E.
Proof. exists (val literal_eps). destruct (val_repr _ eps_double) as (R & T). pose proof (proj2 eps_about) as P. split; [reflexivity|]. split; [|exact R]. rewrite Z.abs_eq in T by (apply Z.lt_le_incl; exact P). split; assumption. Qed.
(** The value is hidden from the solvers, which would compute it. *)
Ltac seal := let EE := fresh "EE" in let H1 := fresh in let H2 := fresh in let H3 := fresh in
  destruct eps_facts as (EE & H1 & H2 & H3); rewrite H1 in *; clear H1.

Section Closer.
Variable lane_bounds : nat -> double -> double * double.
Lemma eps_number : number literal_eps /\ place literal_eps = val literal_eps.
Proof. destruct (double_number _ eps_double) as (A & B & _). auto. Qed.
(** The comparison by cases of the rounded difference. *)
Definition tie (a b : fresult) : bool :=
  let n := fwithin lane_bounds a in let c := fwithin lane_bounds b in
  if (n && c) || (negb n && negb c) then flt (fabs (fr_r a)) (fabs (fr_r b)) else if n && negb c then true else false.
Lemma tie_asym a b : valid (fr_r a) -> valid (fr_r b) -> tie a b = true -> tie b a = false.
Proof.
  intros VA VB. unfold tie. destruct (fwithin lane_bounds a), (fwithin lane_bounds b); cbn [andb orb negb]; intros H; try discriminate; try reflexivity;
    apply flt_asym; try apply fabs_valid; assumption.
Qed.
Lemma closer_nan a b : fsub (fr_dist a) (fr_dist b) = S754_nan -> fcloser lane_bounds a b = tie a b.
Proof. intros E. unfold fcloser. rewrite E. reflexivity. Qed.
Lemma closer_number a b : number (fsub (fr_dist a) (fr_dist b)) ->
  let d := place (fsub (fr_dist a) (fr_dist b)) in
  (d < - val literal_eps -> fcloser lane_bounds a b = true) /\ (val literal_eps <= d -> fcloser lane_bounds a b = false) /\
  (- val literal_eps <= d < val literal_eps -> fcloser lane_bounds a b = tie a b).
Proof.
  intros N d. destruct eps_number as (NE & PE). destruct (fneg_number _ NE) as (NM & PM). rewrite PE in PM. unfold fcloser. fold (tie a b).
  set (delta := fsub (fr_dist a) (fr_dist b)) in *. pose proof (flt_place delta _ N NM) as A. pose proof (fle_place _ delta NE N) as B. rewrite PM in A. rewrite PE in B. fold d in A, B. clear PE PM. seal.
  split; [|split]; intros H'.
  - rewrite (proj2 A H'). reflexivity.
  - destruct (flt delta (fneg literal_eps)) eqn:E; [pose proof (proj1 A eq_refl); lia|]. rewrite (proj2 B H'). reflexivity.
  - destruct (flt delta (fneg literal_eps)) eqn:E; [pose proof (proj1 A eq_refl); lia|]. destruct (fle literal_eps delta) eqn:E2; [pose proof (proj1 B eq_refl); lia|]. reflexivity.
Qed.
Lemma closer_asym a b : proper_result a -> proper_result b -> fcloser lane_bounds a b = true -> fcloser lane_bounds b a = false.
Proof.
  intros [DA RA] [DB RB] H. destruct (fsub_both _ _ DA DB) as [[E1 E2]|(N1 & N2 & E)].
  - rewrite closer_nan in * by assumption. apply tie_asym; assumption.
  - destruct (closer_number a b N1) as (A1 & A2 & A3), (closer_number b a N2) as (B1 & B2 & B3). rewrite E in *. set (d := place (fsub (fr_dist a) (fr_dist b))) in *. clearbody d. clear E. seal.
    destruct (Z_lt_le_dec d (- EE)); [apply B2; lia|]. destruct (Z_lt_le_dec d EE); [|rewrite A2 in H by lia; discriminate].
    destruct (Z.eq_dec d (- EE)); [apply B2; lia|]. rewrite B3 by lia. rewrite A3 in H by lia. apply tie_asym; assumption.
Qed.
Lemma flt_irrefl x : valid x -> flt x x = false.
Proof. intros V. destruct (flt x x) eqn:E; [|reflexivity]. pose proof (flt_asym x x V V E). congruence. Qed.
Lemma closer_irrefl a : proper_result a -> fcloser lane_bounds a a = false.
Proof. intros P. destruct (fcloser lane_bounds a a) eqn:E; [|reflexivity]. pose proof (closer_asym a a P P E). congruence. Qed.

(** Finite distances. *)
Lemma closer_far a b : is_double (fr_dist a) -> is_double (fr_dist b) ->
  2 ^ 53 * val literal_eps < (2 ^ 53 - 1) * (val (fr_dist b) - val (fr_dist a)) -> fcloser lane_bounds a b = true.
Proof.
  intros DA DB L. destruct (result_place _ _ (fsub_spec _ _ DA DB)) as (N & E). apply (closer_number a b N). rewrite E. set (z := val (fr_dist a) - val (fr_dist b)) in *.
  pose proof (rnd_near z) as R. clear E. seal. assert (Z : z < 0) by lia. rewrite (Z.abs_neq z) in R by lia.
  assert (rnd z < - EE) by lia. pose proof top_pos. unfold cap. lia.
Qed.
Lemma closer_bound a b : is_double (fr_dist a) -> is_double (fr_dist b) -> fcloser lane_bounds a b = true -> val (fr_dist a) - val (fr_dist b) < val literal_eps.
Proof.
  intros DA DB H. destruct (result_place _ _ (fsub_spec _ _ DA DB)) as (N & E). destruct (closer_number a b N) as (_ & A2 & _). rewrite E in A2. set (z := val (fr_dist a) - val (fr_dist b)) in *.
  clear E. seal. destruct (Z_lt_le_dec z EE) as [L|L]; [exact L|]. exfalso. rewrite A2 in H; [discriminate|].
  pose proof (rnd_ge z EE ltac:(assumption) L). unfold cap. lia.
Qed.

(** The selection loop. *)
Lemma pick_in l : forall init, In (fpick lane_bounds init l) (init :: l).
Proof.
  unfold fpick. induction l as [|x l IH]; intros init; [left; reflexivity|]. cbn [fold_left]. destruct (fcloser lane_bounds x init); [|destruct (IH init) as [E|I]; [left; exact E|right; right; exact I]].
  destruct (IH x) as [E|I]; [right; left; exact E|right; right; exact I].
Qed.
Lemma pick_drift l : forall init, (forall x, In x (init :: l) -> is_double (fr_dist x)) ->
  val (fr_dist (fpick lane_bounds init l)) <= val (fr_dist init) + Z.of_nat (List.length l) * val literal_eps.
Proof.
  unfold fpick. induction l as [|x l IH]; intros init F; [cbn [fold_left List.length]; rewrite Z.mul_0_l, Z.add_0_r; apply Z.le_refl|]. cbn [fold_left List.length]. 
  destruct (fcloser lane_bounds x init) eqn:C.
  - pose proof (IH x ltac:(intros y [<-|Y]; apply F; [right; left; reflexivity|right; right; exact Y])). apply closer_bound in C; [seal; lia|apply F; right; left; reflexivity|apply F; left; reflexivity].
  - pose proof (IH init ltac:(intros y [<-|Y]; apply F; [left; reflexivity|right; right; exact Y])). seal; lia.
Qed.
Lemma pick_closest l : forall init y, (forall x, In x (init :: l) -> is_double (fr_dist x)) -> In y l ->
  (2 ^ 53 - 1) * (val (fr_dist (fpick lane_bounds init l)) - val (fr_dist y)) <= Z.of_nat (List.length l) * (2 ^ 53 * val literal_eps).
Proof.
  induction l as [|x l IH]; [intros init y F []|intros init y F [<-|Y]].
  - unfold fpick. cbn [fold_left]. destruct (fcloser lane_bounds x init) eqn:C.
    + pose proof (pick_drift l x ltac:(intros z [<-|Z]; apply F; [right; left; reflexivity|right; right; exact Z])) as D. unfold fpick in D. cbn [List.length]. seal; pose proof (Z.mul_nonneg_nonneg (Z.of_nat (List.length l)) EE (Nat2Z.is_nonneg _) ltac:(lia)); lia.
    + pose proof (pick_drift l init ltac:(intros z [<-|Z]; apply F; [left; reflexivity|right; right; exact Z])) as D. unfold fpick in D. cbn [List.length].
      assert ((2 ^ 53 - 1) * (val (fr_dist init) - val (fr_dist x)) <= 2 ^ 53 * val literal_eps).
      { destruct (Z_lt_le_dec (2 ^ 53 * val literal_eps) ((2 ^ 53 - 1) * (val (fr_dist init) - val (fr_dist x)))) as [L|L]; [|exact L]. pose proof (closer_far x init (F x (or_intror (or_introl eq_refl))) (F init (or_introl eq_refl)) L) as X. rewrite X in C. discriminate C. }
      seal; pose proof (Z.mul_nonneg_nonneg (Z.of_nat (List.length l)) EE (Nat2Z.is_nonneg _) ltac:(lia)); lia.
  - unfold fpick. cbn [fold_left List.length]. destruct (fcloser lane_bounds x init).
    + pose proof (IH x y ltac:(intros z [<-|Z]; apply F; [right; left; reflexivity|right; right; exact Z]) Y) as D. unfold fpick in D. seal; pose proof (Z.mul_nonneg_nonneg (Z.of_nat (List.length l)) EE (Nat2Z.is_nonneg _) ltac:(lia)); lia.
    + pose proof (IH init y ltac:(intros z [<-|Z]; apply F; [left; reflexivity|right; right; exact Z]) Y) as D. unfold fpick in D. seal; pose proof (Z.mul_nonneg_nonneg (Z.of_nat (List.length l)) EE (Nat2Z.is_nonneg _) ltac:(lia)); lia.
Qed.
End Closer.

(** Brute force: the nested loops. *)
Lemma find_flat to_lane rg radius : fFindRoadPositions to_lane rg radius = throw_unless (fle fzero radius)
  (Ok (filter (fun x => is_infinite radius || fle (fr_dist x) radius) (map to_lane (all_lanes rg)))).
Proof.
  unfold fFindRoadPositions, throw_unless. destruct (fle fzero radius); [|reflexivity]. f_equal. set (f := fun x => is_infinite radius || fle (fr_dist x) radius).
  assert (A : forall s acc, fold_left (fun acc lane => let x := to_lane lane in if f x then acc ++ [x] else acc) s acc = acc ++ filter f (map to_lane s)).
  { induction s as [|x s IH]; intros acc; cbn [fold_left map filter]; [rewrite app_nil_r; reflexivity|]. rewrite IH. destruct (f (to_lane x)); [rewrite <- app_assoc|]; reflexivity. }
  assert (B : forall j acc, fold_left (fun acc segment => fold_left (fun acc lane => let x := to_lane lane in if f x then acc ++ [x] else acc) segment acc) j acc = acc ++ filter f (map to_lane (concat j))).
  { induction j as [|x s IH]; intros acc; cbn [fold_left map filter concat]; [rewrite app_nil_r; reflexivity|]. rewrite IH, A, map_app, filter_app, app_assoc. reflexivity. }
  assert (C : forall j acc, fold_left (fun acc junction => fold_left (fun acc segment => fold_left (fun acc lane => let x := to_lane lane in if f x then acc ++ [x] else acc) segment acc) junction acc) j acc = acc ++ filter f (map to_lane (concat (concat j)))).
  { induction j as [|x s IH]; intros acc; cbn [fold_left map filter concat]; [rewrite app_nil_r; reflexivity|]. rewrite IH, B, concat_app, map_app, filter_app, app_assoc. reflexivity. }
  exact (C rg []).
Qed.
