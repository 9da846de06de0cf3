(** Proofs for C105. *)
From Coq Require Import List Permutation ZArith QArith Lia Bool.
From Coq Require Import Floats.SpecFloat.
From Verif Require Import Base Binary64 Binary64_Round Binary64_Order Binary64_Ext KdTree_Model KdTree_Spec KdTree_Proofs KdFloat_Model KdFloat_Spec KdFloat_Proofs Doubles_Model KdRange_Model KdRange_Spec.
Import ListNotations.
Local Open Scope Z_scope.

Lemma fle_iff a b : number a -> number b -> fle a b = (place a <=? place b).
Proof. intros A B. pose proof (fle_place a b A B) as H. destruct (Z.leb_spec (place a) (place b)) as [L|L]; [apply H, L|]. destruct (fle a b); [pose proof (proj1 H eq_refl); lia|reflexivity]. Qed.
Lemma flt_iff a b : number a -> number b -> flt a b = (place a <? place b).
Proof. intros A B. rewrite flt_fle, fle_iff by assumption. destruct (Z.leb_spec (place b) (place a)), (Z.ltb_spec (place a) (place b)); try reflexivity; lia. Qed.
Lemma fmax_place a b : number a -> number b -> number (fmax a b) /\ place (fmax a b) = Z.max (place a) (place b).
Proof. intros A B. unfold fmax. rewrite flt_iff by assumption. destruct (Z.ltb_spec (place a) (place b)); (split; [assumption|lia]). Qed.
Lemma fmin_place a b : number a -> number b -> number (fmin a b) /\ place (fmin a b) = Z.min (place a) (place b).
Proof. intros A B. unfold fmin. rewrite flt_iff by assumption. destruct (Z.ltb_spec (place b) (place a)); (split; [assumption|lia]). Qed.
Lemma lower m t : number m -> is_double t -> 0 <= val t -> number (fsub m t) /\ place (fsub m t) <= place m.
Proof.
  intros M T G. pose proof top_pos. destruct (number_cases m M) as [D|[->| ->]].
  - destruct (result_place _ _ (fsub_spec m t D T)) as [N ->]. split; [exact N|]. destruct (double_number m D) as (_ & -> & L). pose proof (rnd_le (val m - val t) (val m) (proj1 (val_repr m D)) ltac:(lia)). pose proof (proj2 (val_repr m D)). unfold cap. lia.
  - replace (fsub (S754_infinity false) t) with (S754_infinity false) by (destruct T as [_ F]; destruct t; try discriminate; reflexivity). split; [exact M|lia].
  - replace (fsub (S754_infinity true) t) with (S754_infinity true) by (destruct T as [_ F]; destruct t; try discriminate; reflexivity). split; [exact M|lia].
Qed.
Lemma upper m t : number m -> is_double t -> 0 <= val t -> number (fadd m t) /\ place m <= place (fadd m t).
Proof.
  intros M T G. pose proof top_pos. destruct (number_cases m M) as [D|[->| ->]].
  - destruct (result_place _ _ (fadd_spec m t D T)) as [N ->]. split; [exact N|]. destruct (double_number m D) as (_ & -> & L). pose proof (rnd_ge (val m + val t) (val m) (proj1 (val_repr m D)) ltac:(lia)). pose proof (proj2 (val_repr m D)). unfold cap. lia.
  - replace (fadd (S754_infinity false) t) with (S754_infinity false) by (destruct T as [_ F]; destruct t; try discriminate; reflexivity). split; [exact M|lia].
  - replace (fadd (S754_infinity true) t) with (S754_infinity true) by (destruct T as [_ F]; destruct t; try discriminate; reflexivity). split; [exact M|lia].
Qed.

(** Boxes. *)
Lemma built mn mx tol : region_ok (mk_box mn mx tol) -> AxisAlignedBox mn mx tol = Ok (mk_box mn mx tol).
Proof.
  intros ((A1 & A2 & A3) & (B1 & B2 & B3) & T & G & X & Y & W). cbn [min_corner max_corner tolerance] in *. unfold AxisAlignedBox. destruct (double_number tol T) as (NT & ET & _). destruct zero_number as [N0 E0].
  rewrite !fle_iff by assumption. rewrite E0, ET, !(proj2 (Z.leb_le _ _)) by assumption. reflexivity.
Qed.
Lemma intersected a b : region_ok a -> region_ok b -> IsBoxIntersected a b = true <->
  (place (vx (min_corner b)) <= place (vx (max_corner a)) /\ place (vx (min_corner a)) <= place (vx (max_corner b))) /\
  (place (vy (min_corner b)) <= place (vy (max_corner a)) /\ place (vy (min_corner a)) <= place (vy (max_corner b))) /\
  (place (vz (min_corner b)) <= place (vz (max_corner a)) /\ place (vz (min_corner a)) <= place (vz (max_corner b))).
Proof.
  intros ((A1 & A2 & A3) & (B1 & B2 & B3) & _) ((C1 & C2 & C3) & (D1 & D2 & D3) & _). unfold IsBoxIntersected. rewrite !flt_iff by assumption. rewrite negb_true_iff, !orb_false_iff, !Z.ltb_ge. tauto.
Qed.
Lemma intersection a b v : region_ok a -> region_ok b -> between_corners a v -> between_corners b v ->
  exists c, GetIntersection a b = Ok (Some c) /\ region_ok c /\ forall w, between_corners c w <-> between_corners a w /\ between_corners b w.
Proof.
  intros A B VA VB. pose proof (intersected a b A B) as I. unfold GetIntersection. assert (E : IsBoxIntersected a b = true) by (apply I; unfold between_corners in VA, VB; lia). rewrite E. cbn [negb]. clear I E.
  destruct A as ((A1 & A2 & A3) & (B1 & B2 & B3) & T & G & OA), B as ((C1 & C2 & C3) & (D1 & D2 & D3) & _ & _ & OB).
  destruct (fmax_place _ _ A1 C1) as [N1 E1], (fmax_place _ _ A2 C2) as [N2 E2], (fmax_place _ _ A3 C3) as [N3 E3], (fmin_place _ _ B1 D1) as [N4 E4], (fmin_place _ _ B2 D2) as [N5 E5], (fmin_place _ _ B3 D3) as [N6 E6].
  match goal with |- context [AxisAlignedBox ?u ?w ?t] => set (c := mk_box u w t) end.
  assert (RC : region_ok c). { unfold region_ok, vec_number, c; cbn [min_corner max_corner tolerance vx vy vz]. rewrite E1, E2, E3, E4, E5, E6. unfold between_corners in VA, VB. repeat match goal with |- _ /\ _ => split end; try assumption; lia. }
  exists c. unfold c in RC. rewrite (built _ _ _ RC). split; [reflexivity|]. split; [exact RC|]. intros w. unfold between_corners, c; cbn [min_corner max_corner vx vy vz]. rewrite E1, E2, E3, E4, E5, E6. lia.
Qed.
Lemma contains_place b v : region_ok b -> vec_number v -> DoContains b v = true <->
  (place (fsub (vx (min_corner b)) (tolerance b)) <= place (vx v) /\ place (vx v) <= place (fadd (vx (max_corner b)) (tolerance b))) /\
  (place (fsub (vy (min_corner b)) (tolerance b)) <= place (vy v) /\ place (vy v) <= place (fadd (vy (max_corner b)) (tolerance b))) /\
  (place (fsub (vz (min_corner b)) (tolerance b)) <= place (vz v) /\ place (vz v) <= place (fadd (vz (max_corner b)) (tolerance b))).
Proof.
  intros ((A1 & A2 & A3) & (B1 & B2 & B3) & T & G & _) (X & Y & W). unfold DoContains.
  destruct (lower _ _ A1 T G) as [L1 _], (lower _ _ A2 T G) as [L2 _], (lower _ _ A3 T G) as [L3 _], (upper _ _ B1 T G) as [U1 _], (upper _ _ B2 T G) as [U2 _], (upper _ _ B3 T G) as [U3 _].
  rewrite !fle_iff by assumption. rewrite !andb_true_iff, !Z.leb_le. tauto.
Qed.
Lemma inside_contains b v : region_ok b -> vec_number v -> between_corners b v -> DoContains b v = true.
Proof.
  intros R V I. apply (contains_place b v R V). destruct R as ((A1 & A2 & A3) & (B1 & B2 & B3) & T & G & _).
  destruct (lower _ _ A1 T G) as [_ L1], (lower _ _ A2 T G) as [_ L2], (lower _ _ A3 T G) as [_ L3], (upper _ _ B1 T G) as [_ U1], (upper _ _ B2 T G) as [_ U2], (upper _ _ B3 T G) as [_ U3]. unfold between_corners in I. lia.
Qed.
Lemma contained_all a b v : region_ok a -> region_ok b -> vec_number v -> IsBoxContained a b = true -> between_corners b v -> DoContains a v = true.
Proof.
  intros A B V C I. unfold IsBoxContained in C. rewrite forallb_forall in C. destruct B as (MN & MX & _).
  pose proof (C (mk_vec (vx (min_corner b)) (vy (min_corner b)) (vz (min_corner b))) ltac:(unfold get_vertices; cbn [In]; tauto)) as C1.
  pose proof (C (mk_vec (vx (max_corner b)) (vy (max_corner b)) (vz (max_corner b))) ltac:(unfold get_vertices; cbn [In]; tauto)) as C2.
  apply (contains_place a _ A) in C1; [|exact MN]. apply (contains_place a _ A) in C2; [|exact MX]. apply (contains_place a v A V). cbn [vx vy vz] in *. unfold between_corners in I. lia.
Qed.

(** Trees. *)
Section T.
Variable P : Type.
Variable coord : P -> nat -> double.
Notation fin := (finite_point P coord 3).
Notation ordered := (kd_ordered P (coordQ P coord) 3).
Notation tv := (fto_vec P coord).
Definition within_box (b : box) (x : P) : Prop := between_corners b (tv x).

Fixpoint felements (t : frtree P) : list P := match t with FNull => [] | FNode p _ _ l r => p :: felements l ++ felements r end.
Fixpoint fskeleton (t : frtree P) : tree P := match t with FNull => Null | FNode p i _ l r => Node p i (fskeleton l) (fskeleton r) end.
Lemma fskeleton_elements t : elements P (fskeleton t) = felements t.
Proof. induction t as [|p i b l IHl r IHr]; cbn [fskeleton elements felements]; [reflexivity|]. rewrite IHl, IHr. reflexivity. Qed.
Fixpoint covered (t : frtree P) : Prop :=
  match t with FNull => True | FNode _ _ b l r => region_ok b /\ (forall x, In x (felements t) -> within_box b x) /\ covered l /\ covered r end.

Lemma fin_number x : fin x -> vec_number (tv x).
Proof. intros F. unfold vec_number, fto_vec; cbn [vx vy vz]. repeat match goal with |- _ /\ _ => split end; apply double_number, F; lia. Qed.
Lemma tol_ok : is_double default_tolerance /\ 0 <= val default_tolerance.
Proof. split; [split; reflexivity|]. assert (E : (0 <=? val default_tolerance) = true) by (vm_compute; reflexivity). apply Z.leb_le, E. Qed.
Lemma inf_number : number pinf /\ number ninf /\ place pinf = top /\ place ninf = - top.
Proof. repeat split; discriminate. Qed.
Lemma everywhere : region_ok (mk_box lowest highest default_tolerance) /\ forall v, vec_number v -> between_corners (mk_box lowest highest default_tolerance) v.
Proof.
  destruct inf_number as (N1 & N2 & E1 & E2). destruct tol_ok as [T G]. pose proof top_pos. split.
  - unfold region_ok, vec_number, lowest, highest; cbn [min_corner max_corner tolerance vx vy vz]. rewrite E1, E2. repeat match goal with |- _ /\ _ => split end; try assumption; lia.
  - intros v (X & Y & W). unfold between_corners, lowest, highest; cbn [min_corner max_corner vx vy vz]. rewrite E1, E2. pose proof (place_range _ X). pose proof (place_range _ Y). pose proof (place_range _ W). lia.
Qed.
Definition fhalf (left : bool) (pp : P) (i : nat) : box :=
  mk_box (if left then lowest else set_coordinate lowest i (coord pp i)) (if left then set_coordinate highest i (coord pp i) else highest) default_tolerance.
Lemma fhalf_ok left pp i : (i < 3)%nat -> fin pp -> region_ok (fhalf left pp i) /\
  forall x, fin x -> (if left then val (coord x i) <= val (coord pp i) else val (coord pp i) <= val (coord x i)) -> within_box (fhalf left pp i) x.
Proof.
  intros I F. destruct inf_number as (N1 & N2 & E1 & E2). destruct tol_ok as [T G]. pose proof top_pos.
  destruct (double_number _ (F i I)) as (NC & EC & LC). pose proof (place_range _ NC). split.
  - unfold region_ok, vec_number, fhalf, lowest, highest; cbn [min_corner max_corner tolerance]. destruct left, i as [|[|[|i]]]; try lia; cbn [set_coordinate vx vy vz]; rewrite ?E1, ?E2; repeat match goal with |- _ /\ _ => split end; try assumption; try lia.
  - intros x X S. destruct (fin_number x X) as (X0 & X1 & X2). cbn [fto_vec vx vy vz] in *. pose proof (place_range _ X0). pose proof (place_range _ X1). pose proof (place_range _ X2). destruct (double_number _ (X i I)) as (_ & EX & _). rewrite <- EC, <- EX in S.
    unfold within_box, between_corners, fhalf, fto_vec, lowest, highest; cbn [min_corner max_corner]. destruct left, i as [|[|[|i]]]; try lia; cbn [set_coordinate vx vy vz]; rewrite ?E1, ?E2; lia.
Qed.

Lemma regions_built t : forall (left : bool) preg pp pi i, region_ok preg -> fin pp -> (pi < 3)%nat -> (i < 3)%nat -> ordered i t ->
  (forall x, In x (elements P t) -> fin x /\ within_box preg x) ->
  (forall x, In x (elements P t) -> if left then val (coord x pi) <= val (coord pp pi) else val (coord pp pi) <= val (coord x pi)) ->
  exists t', fInitialize3dRegions P coord left preg pp pi t = Ok t' /\ fskeleton t' = t /\ covered t'.
Proof.
  induction t as [|p j l IHl r IHr]; intros left preg pp pi i W Fp Hpi Hi K Hin Hside; [exists FNull; repeat split|].
  cbn [fInitialize3dRegions]. destruct (fhalf_ok left pp pi Hpi Fp) as [HW HI]. unfold fhalf in HW. rewrite (built _ _ _ HW). cbn [obind]. fold (fhalf left pp pi) in *.
  destruct (Hin p (or_introl eq_refl)) as [FP IP].
  destruct (intersection preg (fhalf left pp pi) (tv p) W HW IP (HI p FP (Hside p (or_introl eq_refl)))) as (reg & -> & WR & S). cbn [obind].
  destruct K as (-> & KL & KR & Kl & Kr).
  assert (Hreg : forall x, In x (elements P (Node p i l r)) -> fin x /\ within_box reg x).
  { intros x X. destruct (Hin x X) as [FX IX]. split; [exact FX|]. apply S. split; [exact IX|]. apply HI; [exact FX|exact (Hside x X)]. }
  assert (Hm : (Nat.modulo (i + 1) 3 < 3)%nat) by (apply Nat.mod_upper_bound; lia).
  destruct (IHl true reg p i _ WR FP Hi Hm Kl) as (l' & EL & SL & CL).
  { intros x X; apply Hreg; right; apply in_or_app; auto. } { intros x X. rewrite Zle_Qle. apply KL, X. }
  destruct (IHr false reg p i _ WR FP Hi Hm Kr) as (r' & ER & SR & CR).
  { intros x X; apply Hreg; right; apply in_or_app; auto. } { intros x X. rewrite Zle_Qle. apply KR, X. }
  rewrite EL; cbn [obind]. rewrite ER; cbn [obind]. eexists; split; [reflexivity|]. cbn [fskeleton covered felements]. rewrite SL, SR.
  split; [reflexivity|]. split; [exact WR|]. split; [|split; assumption]. intros x X. apply Hreg. cbn [elements]. rewrite <- SL, <- SR, !fskeleton_elements. exact X.
Qed.
Lemma tree_built ne l : nth_element_finite P coord ne -> l <> [] -> (forall x, In x l -> fin x) ->
  exists t, fKDTree3D P coord ne l = Ok t /\ Permutation l (felements t) /\ covered t.
Proof.
  intros Hn N F. destruct (KDTree_spec P (coordQ P coord) 3 ltac:(lia) ne (nth_finite_ok P coord ne Hn) l N) as (t & E & Pm & K). unfold fKDTree3D. rewrite E; cbn [obind].
  destruct t as [|p j a b]; [apply Permutation_sym, Permutation_nil in Pm; congruence|]. cbn [fInitializeRegions].
  destruct everywhere as [W A]. rewrite (built _ _ _ W). cbn [obind]. set (reg := mk_box lowest highest default_tolerance) in *. destruct K as (-> & KL & KR & Kl & Kr).
  assert (FE : forall x, In x (elements P (Node p 0 a b)) -> fin x /\ within_box reg x). { intros x X. assert (FX : fin x) by (apply F; eapply Permutation_in; [apply Permutation_sym, Pm|exact X]). split; [exact FX|]. apply A, fin_number, FX. }
  destruct (FE p (or_introl eq_refl)) as [FP _].
  destruct (regions_built a true reg p 0%nat _ W FP ltac:(lia) ltac:(apply Nat.mod_upper_bound; lia) Kl) as (l' & EL & SL & CL).
  { intros x X; apply FE; right; apply in_or_app; auto. } { intros x X. rewrite Zle_Qle. apply KL, X. }
  destruct (regions_built b false reg p 0%nat _ W FP ltac:(lia) ltac:(apply Nat.mod_upper_bound; lia) Kr) as (r' & ER & SR & CR).
  { intros x X; apply FE; right; apply in_or_app; auto. } { intros x X. rewrite Zle_Qle. apply KR, X. }
  rewrite EL; cbn [obind]. rewrite ER; cbn [obind]. eexists; split; [reflexivity|]. cbn [felements covered]. rewrite <- !fskeleton_elements, SL, SR. split; [exact Pm|].
  split; [exact W|]. split; [|split; assumption]. intros x X. apply FE. exact X.
Qed.

Lemma freport_elements t : fReportPointsInSubTree P t = felements t.
Proof. induction t as [|p i b l IHl r IHr]; cbn [fReportPointsInSubTree felements]; [reflexivity|]. rewrite IHl, IHr. reflexivity. Qed.
Lemma sublist_refl (l : list P) : sublist l l.
Proof. induction l; [apply sublist_nil|apply sublist_take; auto]. Qed.
Lemma sublist_app (a b c d : list P) : sublist a b -> sublist c d -> sublist (a ++ c) (b ++ d).
Proof. intros H K. induction H; cbn [app]; [induction l; cbn [app]; [exact K|apply sublist_skip; assumption]|apply sublist_skip; assumption|apply sublist_take; assumption]. Qed.
Lemma filter_nothing (f : P -> bool) l : (forall x, In x l -> f x = false) -> filter f l = [].
Proof. induction l as [|a l IH]; cbn [filter]; intros H; [reflexivity|]. rewrite (H a (or_introl eq_refl)). apply IH. intros x X. apply H. right. exact X. Qed.

Lemma search reg t f : region_ok reg -> (forall x, In x (felements t) -> fin x) -> covered t -> (forall x, f x = true -> within_box reg x) ->
  sublist (fRangeSearch P coord reg t) (felements t) /\ (forall x, In x (fRangeSearch P coord reg t) -> DoContains reg (tv x) = true) /\
  filter f (fRangeSearch P coord reg t) = filter f (felements t).
Proof.
  intros W FE C Hf. induction t as [|p j b l IHl r IHr]; [cbn [fRangeSearch felements]; split; [apply sublist_nil|]; split; [intros x []|reflexivity]|].
  destruct C as (Wb & Cb & Cl & Cr). assert (FL : forall x, In x (felements l) -> fin x) by (intros x X; apply FE; right; apply in_or_app; auto). assert (FR : forall x, In x (felements r) -> fin x) by (intros x X; apply FE; right; apply in_or_app; auto).
  destruct (IHl FL Cl) as (L1 & L2 & L3). destruct (IHr FR Cr) as (R1 & R2 & R3). clear IHl IHr. cbn [fRangeSearch].
  set (own := if DoContains reg (tv p) then [p] else []). pose proof (FE p (or_introl eq_refl)) as FP.
  assert (O : sublist own [p] /\ (forall x, In x own -> DoContains reg (tv x) = true) /\ filter f own = filter f [p]).
  { unfold own. destruct (DoContains reg (tv p)) eqn:E.
    - split; [apply sublist_refl|]. split; [intros x [<-|[]]; exact E|reflexivity].
    - split; [apply sublist_nil|]. split; [intros x []|]. cbn [filter]. destruct (f p) eqn:Ef; [|reflexivity]. rewrite (inside_contains reg (tv p) W (fin_number p FP) (Hf p Ef)) in E. discriminate. }
  destruct O as (O1 & O2 & O3).
  set (body := match DoOverlaps reg b with kContained => fReportPointsInSubTree P (FNode p j b l r) | kIntersected => own ++ fRangeSearch P coord reg l ++ fRangeSearch P coord reg r | kDisjointed => [] end).
  assert (Body : sublist body (felements (FNode p j b l r)) /\ (forall x, In x body -> DoContains reg (tv x) = true) /\ filter f body = filter f (felements (FNode p j b l r))).
  { unfold body, DoOverlaps. pose proof (intersected reg b W Wb) as I. destruct (IsBoxIntersected reg b).
    - destruct (IsBoxContained reg b) eqn:C.
      + rewrite freport_elements. split; [apply sublist_refl|]. split; [|reflexivity]. intros x X. apply (contained_all reg b (tv x) W Wb (fin_number x (FE x X)) C). apply Cb, X.
      + change (felements (FNode p j b l r)) with ([p] ++ (felements l ++ felements r)). split; [apply sublist_app; [exact O1|]; apply sublist_app; assumption|]. split.
        * intros x X. apply in_app_or in X. destruct X as [X|X]; [auto|]. apply in_app_or in X. destruct X; auto.
        * rewrite !filter_app, O3, L3, R3. reflexivity.
    - split; [apply sublist_nil|]. split; [intros x []|]. symmetry. cbn [filter]. apply filter_nothing. intros x X. destruct (f x) eqn:Ef; [|reflexivity]. exfalso.
      pose proof (Hf x Ef) as H1. pose proof (Cb x X) as H2. unfold within_box, between_corners in H1, H2. assert (false = true) by (apply I; lia). discriminate. }
  destruct l as [|lp lj lb ll lr]; [destruct r as [|rp rj rb rl rr]|]; try exact Body. cbn [felements app]. split; [exact O1|]. split; assumption.
Qed.
End T.
