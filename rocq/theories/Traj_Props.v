(** Piecewise polynomial trajectories: evaluation, changes of time, pieces, arithmetic (C73-C75). *)
From Coq Require Import List QArith Qabs ZArith NArith Bool Arith Lia Lqa.
From Verif Require Import Base Poly_Model Poly_Spec Poly_Proofs Poly_Proofs2 Poly_Proofs3 Poly_Props Traj_Model Traj_Spec Traj_Proofs Traj_Proofs2 Traj_Proofs3 Traj_Proofs4 Traj_Proofs5 Traj_Proofs6.
Import ListNotations.

(** The trajectory of the examples: 1 + 2u + u^2 over [0,1), 4 - u over [1,3]; it is continuous, not smooth. *)
Definition bend : traj := Traj [0; 1; 3] (map scalar_mat [poly_coefs [1; 2; 1]; poly_coefs [4; -(1)]]).
Lemma bend_sound : sound bend 1 1.
Proof.
  apply sound_build; [reflexivity|discriminate| |].
  - intros [|[|i]] Hi; cbn in *; try lia; reflexivity.
  - intros [|[|i]] m E; cbn in E; try (destruct i; discriminate); injection E as <-; (split; [reflexivity|]); (split; [reflexivity|]); intros r c _ _; cbn [scalar_mat m_at].
    + destruct (from_coefficients [1; 2; 1]) as (G & U & _). auto.
    + destruct (from_coefficients [4; -(1)]) as (G & U & _). auto.
Qed.
Lemma bend_spaced : spaced (breaks bend).
Proof. intros [|[|i]] Hi; cbn in *; try lia; vm_compute; discriminate. Qed.
Lemma bend_variable : in_variable var_t bend 1 1.
Proof.
  intros [|[|i]] r c Hi _ _; cbn [bend polys map List.length] in Hi; try lia; vm_compute;
    repeat first [apply Forall_nil | apply Forall_cons; [first [left; reflexivity | right; eexists; split; [|reflexivity]; lia]|]].
Qed.

(** The range of times includes both its ends. *)
Theorem time_in_range : forall p R C t, sound p R C -> exists b, is_time_in_range p t = Ok b /\ (b = true <-> first_break p <= t <= last_break p).
Proof.
  intros p R C t So. exists (Qleb (first_break p) t && Qleb t (last_break p))%bool. unfold is_time_in_range. rewrite (start_ok p R C So). cbn [obind]. split.
  - destruct (Qleb (first_break p) t); [rewrite (end_ok p R C So)|]; reflexivity.
  - rewrite Bool.andb_true_iff. unfold Qleb. rewrite !Qle_bool_iff. tauto.
Qed.
Print Assumptions time_in_range.
Example time_in_range_example : is_time_in_range bend 0 = Ok true /\ is_time_in_range bend 3 = Ok true /\ is_time_in_range bend 4 = Ok false.
Proof. repeat split; vm_compute; reflexivity. Qed.
(** Lookup: every time has a closest one in range, and it falls into one segment. *)
Theorem segment_found : forall p R C t, sound p R C -> exists i x, get_segment_index p t = Ok i /\
  closest (first_break p) (last_break p) t x /\ span (breaks p) x i /\ (i < List.length (polys p))%nat /\ forall j, span (breaks p) x j -> j = i.
Proof.
  intros p R C t So. destruct (index_ok p R C So t) as (i & x & E & _ & Cl & Sp & Hi). exists i, x. split; [auto|]. split; [auto|]. split; [auto|]. split; [auto|].
  intros j Sj. apply (span_unique (breaks p) x x); auto; [apply So|reflexivity].
Qed.
Print Assumptions segment_found.
Example segment_example : get_segment_index bend (1 # 2) = Ok 0%nat /\ get_segment_index bend 1 = Ok 1%nat /\ get_segment_index bend 3 = Ok 1%nat /\ get_segment_index bend (-(7)) = Ok 0%nat.
Proof. repeat split; vm_compute; reflexivity. Qed.

(** value and EvalDerivative: the k-th derivative of the segment's polynomial, at the closest time, measured from the segment's break. *)
Theorem evaluation : forall p R C t k, sound p R C -> exists M, EvalDerivative p t k = Ok M /\ m_rows M = R /\ m_cols M = C /\
  forall i x, closest (first_break p) (last_break p) t x -> span (breaks p) x i -> forall r c g, (r < R)%nat -> (c < C)%nat ->
    derives k (curve (entry p i r c)) g -> m_at M r c == g (x - nth i (breaks p) 0).
Proof.
  intros p R C t k So. destruct (eval_works p R C t k So) as (M & E & A & B & _). exists M. split; [auto|]. split; [auto|]. split; [auto|]. intros i x Cl Sp r c g Hr Hc D.
  apply (eval_derives p R C t k M So E i x Cl Sp r c g Hr Hc D).
Qed.
Print Assumptions evaluation.
Example evaluation_example : omap (fun M => m_at M 0%nat 0%nat) (tvalue bend 2) = Ok 3 /\ omap (fun M => Qred (m_at M 0%nat 0%nat)) (EvalDerivative bend (1 # 2) 1) = Ok 3 /\
  omap (fun M => m_at M 0%nat 0%nat) (tvalue bend 100) = Ok 2.
Proof. repeat split; vm_compute; reflexivity. Qed.

(** scalarValue is value(t)(row, col) for times in range... *)
Theorem scalar_value : forall p R C t r c, sound p R C -> (r < R)%nat -> (c < C)%nat -> first_break p <= t <= last_break p ->
  exists M y, tvalue p t = Ok M /\ scalarValue p t r c = Ok y /\ y == m_at M r c.
Proof.
  intros p R C t r c So Hr Hc Ht. destruct (value_total p R C t So) as (M & V & _). destruct (index_ok p R C So t) as (i & x & E & _ & Cl & Sp & Hi).
  assert (Ex : x == t) by (apply Cl; lra). destruct (eval_segment_ok p R C i t r c 0 So Hi Hr Hc) as (y & Ey & Hy). exists M, y. split; [auto|]. split.
  - unfold scalarValue. rewrite E. exact Ey.
  - destruct (value_works p R C t M So V) as (_ & _ & W). rewrite (W i x Cl Sp r c Hr Hc), Hy. destruct (sound_entry p R C i r c So Hi Hr Hc) as [G U].
    rewrite (curve_dsum _ _ G U). apply dsum_proper. rewrite Ex. reflexivity.
Qed.
Print Assumptions scalar_value.
(** ... but outside of it scalarValue extrapolates, though documented as "Equivalent to value(t)(row, col)" (piecewise_polynomial.h 484-489). *)
Theorem scalar_value_refuted : exists p t, sound p 1 1 /\ exists M y, tvalue p t = Ok M /\ scalarValue p t 0 0 = Ok y /\ ~ y == m_at M 0%nat 0%nat.
Proof.
  exists bend, 5. split; [apply bend_sound|]. destruct (value_total bend 1 1 5 bend_sound) as (M & V & _). exists M, 0. split; [exact V|]. split; [vm_compute; reflexivity|].
  assert (X : omap (fun M => m_at M 0%nat 0%nat) (tvalue bend 5) = Ok 2) by (vm_compute; reflexivity). rewrite V in X. cbn [omap] in X. injection X as ->. discriminate.
Qed.
Print Assumptions scalar_value_refuted.

(** vector_values: the values of the given times, next to each other. *)
Theorem vector_values_listed : forall p R ts, sound p R 1 -> exists M, vector_values p ts = Ok M /\ m_rows M = R /\ m_cols M = List.length ts /\
  forall r j, (r < R)%nat -> (j < List.length ts)%nat -> exists N, tvalue p (nth j ts 0) = Ok N /\ m_at M r j = m_at N r 0%nat.
Proof.
  intros p R ts So. unfold vector_values. rewrite (rows_ok p R 1 So), (cols_ok p R 1 So). cbn [obind Nat.eqb orb throw_unless].
  destruct (mapM_ok (tvalue p) ts) as [vs E]; [intros t _; destruct (value_total p R 1 t So) as (M & V & _); eauto|]. rewrite E. cbn [omap]. eexists. split; [reflexivity|].
  split; [reflexivity|]. split; [reflexivity|]. cbn [m_at]. intros r j _ Hj. apply mapM_inv in E. destruct (nth_error ts j) as [t|] eqn:Et; [|apply nth_error_None in Et; lia].
  destruct (Forall2_nth _ _ _ E j t Et) as (N & EN & VN). exists N. rewrite (nth_error_nth _ _ _ Et), EN. auto.
Qed.
Print Assumptions vector_values_listed.
Example vector_values_example : omap (fun M => (m_rows M, m_cols M, map Qred (map (m_at M 0%nat) [0; 1; 2]%nat))) (vector_values bend [0; 1 # 2; 2]) = Ok (1%nat, 3%nat, [1; 9 # 4; 3]).
Proof. vm_compute. reflexivity. Qed.

(** derivative(j) has the j-th derivatives as its values. *)
Theorem derivative_trajectory : forall p R C j, sound p R C -> exists p', derivative p j = Ok p' /\ sound p' R C /\ breaks p' = breaks p /\
  forall t k, exists M M', EvalDerivative p t (j + k) = Ok M /\ EvalDerivative p' t k = Ok M' /\ agree R C M M'.
Proof.
  intros p R C j So. destruct (derivative_ok p R C j So) as (p' & E & B & L & So' & D). exists p'. split; [auto|]. split; [auto|]. split; [auto|]. intros t k.
  destruct (eval_works p R C t (j + k) So) as (M & EM & MR & MC & _). destruct (eval_works p' R C t k So') as (M' & EM' & MR' & MC' & _). exists M, M'. split; [auto|]. split; [auto|].
  split; [auto|]. split; [auto|]. split; [auto|]. split; [auto|]. intros r c Hr Hc. destruct (spot p R C t So) as (i & x & Cl & Sp & Hi).
  destruct (sound_entry p' R C i r c So') as [G' U']; [lia|auto|auto|]. set (g := dsum k (p_monos (entry p' i r c))). assert (Dg : derives k (curve (entry p' i r c)) g) by (apply dsum_of_curve; auto).
  rewrite (eval_derives p R C t (j + k) M So EM i x Cl Sp r c g Hr Hc); [|eapply derives_plus; [apply D; auto|exact Dg]].
  assert (Eb : first_break p' = first_break p /\ last_break p' = last_break p) by (unfold first_break, last_break; rewrite B; auto). destruct Eb as [E1 E2].
  rewrite (eval_derives p' R C t k M' So' EM' i x) with (g := g); auto; [rewrite B; reflexivity|rewrite E1, E2; exact Cl|rewrite B; exact Sp].
Qed.
Print Assumptions derivative_trajectory.
Example derivative_example : omap (fun q => map (fun m => p_monos (m_at m 0%nat 0%nat)) (polys q)) (derivative bend 1) = Ok [[Mono 2 []; Mono 2 [Term var_t 1]]; [Mono (-1) []]].
Proof. vm_compute. reflexivity. Qed.

(** integral(v): starts at v, is continuous, and has the trajectory as its slope. *)
Theorem integral_trajectory : forall p R C v, sound p R C ->
  (forall i r c, (i < List.length (polys p))%nat -> (r < R)%nat -> (c < C)%nat -> integrable (entry p i r c)) ->
  exists p', integral p v = Ok p' /\ sound p' R C /\ breaks p' = breaks p /\
  (forall i r c, (S i < List.length (polys p))%nat -> (r < R)%nat -> (c < C)%nat -> joins p' r c 0 i) /\
  (forall M, tvalue p' (first_break p) = Ok M -> forall r c, (r < R)%nat -> (c < C)%nat -> m_at M r c == m_at v r c) /\
  (forall t M M', tvalue p t = Ok M -> EvalDerivative p' t 1 = Ok M' -> agree R C M M').
Proof.
  intros p R C v So HI. destruct (integral_traj_ok p R C v So HI) as (p' & E & So' & B & L & V0 & Sl & J). exists p'. split; [auto|]. split; [auto|]. split; [auto|]. split; [exact J|]. split.
  - intros M V r c Hr Hc. pose proof (polys_pos p R C So) as PP. pose proof (len_breaks p' R C So') as LB. rewrite (value_at p' R C _ M 0 So' V); auto.
    + rewrite B. unfold first_break. rewrite hd_nth. rewrite <- (V0 r c Hr Hc). apply curve_proper. ring.
    + replace (first_break p) with (nth 0 (breaks p') 0) by (unfold first_break; rewrite hd_nth, B; reflexivity). apply span_break; [apply So'|lia].
  - intros t M M' V V'. destruct (value_works p R C t M So V) as (MR & MC & W). destruct (eval_works p' R C t 1 So') as (M2 & E2 & MR' & MC' & _). assert (M2 = M') by congruence. subst M2.
    split; [auto|]. split; [auto|]. split; [auto|]. split; [auto|]. intros r c Hr Hc. destruct (spot p R C t So) as (i & x & Cl & Sp & Hi). rewrite (W i x Cl Sp r c Hr Hc). symmetry.
    assert (Eb : first_break p' = first_break p /\ last_break p' = last_break p) by (unfold first_break, last_break; rewrite B; auto). destruct Eb as [E1 E3].
    rewrite (eval_derives p' R C t 1 M' So' V' i x) with (g := curve (entry p i r c)); auto; [rewrite B; reflexivity|rewrite E1, E3; exact Cl|rewrite B; exact Sp|].
    econstructor; [intros y; apply Sl; auto|constructor; reflexivity].
Qed.
Print Assumptions integral_trajectory.
Example integral_example : (forall i r c, (i < List.length (polys bend))%nat -> (r < 1)%nat -> (c < 1)%nat -> integrable (entry bend i r c)) /\
  omap (fun M => Qred (m_at M 0%nat 0%nat)) (obind (integral bend (scalar_mat 10)) (fun q => tvalue q 3)) = Ok (55 # 3).
Proof.
  split; [|vm_compute; reflexivity]. intros [|[|i]] r c Hi _ _; cbn in Hi; try lia; right; exists var_t; vm_compute.
  - exists (Mono 2 [Term var_t 1]), (Term var_t 1). auto.
  - exists (Mono (-1) [Term var_t 1]), (Term var_t 1). auto.
Qed.
(** The derivative of a piecewise linear trajectory cannot be integrated back: Polynomial::Integral throws on constants. *)
Theorem integral_of_derivative_refuted : exists p p', sound p 1 1 /\ derivative p 1 = Ok p' /\ sound p' 1 1 /\ forall v, integral p' v = Throw.
Proof.
  set (p := Traj [0; 1] (map scalar_mat [poly_coefs [0; 1]])).
  assert (So : sound p 1 1).
  { apply sound_build; [reflexivity|discriminate|intros [|i] Hi; cbn in *; try lia; reflexivity|]. intros [|i] m E; cbn in E; [|destruct i; discriminate]. injection E as <-. split; [reflexivity|]. split; [reflexivity|].
    intros r c _ _. cbn [scalar_mat m_at]. destruct (from_coefficients [0; 1]) as (G & U & _). auto. }
  destruct (derivative_ok p 1 1 1 So) as (p' & E & B & L & So' & _). exists p, p'. split; [exact So|]. split; [exact E|]. split; [exact So'|]. intros v.
  assert (X : derivative p 1 = Ok p') by exact E. vm_compute in X. injection X as <-. vm_compute. reflexivity.
Qed.
Print Assumptions integral_of_derivative_refuted.

(** Pairs of evaluations. *)
Lemma both p p' R C t t' : sound p R C -> sound p' R C ->
  (forall M M', tvalue p t = Ok M -> tvalue p' t' = Ok M' -> forall r c, (r < R)%nat -> (c < C)%nat -> m_at M' r c == m_at M r c) ->
  exists M M', tvalue p t = Ok M /\ tvalue p' t' = Ok M' /\ agree R C M' M.
Proof.
  intros So So' H. destruct (value_total p R C t So) as (M & V & A & B). destruct (value_total p' R C t' So') as (M' & V' & A' & B'). exists M, M'. split; [auto|]. split; [auto|].
  split; [auto|]. split; [auto|]. split; [auto|]. split; [auto|]. intros. apply H; auto.
Qed.

(** shiftRight: after(t) = before(t - offset). *)
Theorem shift_right : forall p R C o, sound p R C -> sound (shiftRight p o) R C /\ first_break (shiftRight p o) == first_break p + o /\ last_break (shiftRight p o) == last_break p + o /\
  forall t, exists M M', tvalue p (t - o) = Ok M /\ tvalue (shiftRight p o) t = Ok M' /\ agree R C M' M.
Proof.
  intros p R C o So. pose proof (shift_ok p R C o So) as So'. pose proof (len_breaks p R C So) as LB. split; [auto|].
  assert (Hb : forall i, (i < List.length (breaks p))%nat -> nth i (breaks (shiftRight p o)) 0 == 1 * nth i (breaks p) 0 + o) by (intros i Hi; cbn [shiftRight breaks]; rewrite nth_map_q by auto; ring).
  assert (Lb : List.length (breaks (shiftRight p o)) = List.length (breaks p)) by (cbn [shiftRight breaks]; apply map_length).
  split; [unfold first_break; rewrite !hd_nth, Hb by lia; ring|]. split; [unfold last_break; rewrite !last_nth, Lb, Hb by lia; ring|].
  intros t. apply both; auto. intros M M' V V'. apply (affine_moves p (shiftRight p o) R C 1 o (t - o) t M M'); auto; [reflexivity| |ring].
  intros i r c u _ _ _. apply curve_proper. ring.
Qed.
Print Assumptions shift_right.
(** ScaleTime: after(t) = before(t / scale). *)
Theorem scale_time : forall p R C s, sound p R C -> 0 < s -> exists p', ScaleTime p s = Ok p' /\ sound p' R C /\ first_break p' == first_break p * s /\ last_break p' == last_break p * s /\
  forall t, exists M M', tvalue p (t / s) = Ok M /\ tvalue p' t = Ok M' /\ agree R C M' M.
Proof.
  intros p R C s So Hs. destruct (scale_ok p R C s So Hs) as (p' & E & B & L & So' & H). pose proof (len_breaks p R C So) as LB. exists p'. split; [auto|]. split; [auto|].
  assert (Hb : forall i, (i < List.length (breaks p))%nat -> nth i (breaks p') 0 == s * nth i (breaks p) 0 + 0) by (intros i Hi; rewrite B, nth_map_q by auto; ring).
  assert (Lb : List.length (breaks p') = List.length (breaks p)) by (rewrite B; apply map_length).
  split; [unfold first_break; rewrite !hd_nth, Hb by lia; ring|]. split; [unfold last_break; rewrite !last_nth, Lb, Hb by lia; ring|].
  intros t. apply both; auto. intros M M' V V'. apply (affine_moves p p' R C s 0 (t / s) t M M'); auto. field. lra.
Qed.
Print Assumptions scale_time.
Theorem scale_time_rejects : forall p s, s <= 0 -> ScaleTime p s = Throw.
Proof. intros p s H. unfold ScaleTime. rewrite (proj2 (Qltb_false 0 s)) by auto. reflexivity. Qed.
Print Assumptions scale_time_rejects.
(** ReverseTime: after(t) = before(-t), unless t is a break where the trajectory jumps (as documented). *)
Theorem reverse_time : forall p R C, sound p R C -> exists p', ReverseTime p = Ok p' /\ sound p' R C /\ first_break p' == - last_break p /\ last_break p' == - first_break p /\
  forall t, exists M M', tvalue p (- t) = Ok M /\ tvalue p' t = Ok M' /\ forall r c, (r < R)%nat -> (c < C)%nat ->
    (forall i, (S i < List.length (polys p))%nat -> - t == nth (S i) (breaks p) 0 -> joins p r c 0 i) -> m_at M' r c == m_at M r c.
Proof.
  intros p R C So. destruct (reverse_ok p R C So) as (p' & E & So' & B & L & _). pose proof (len_breaks p R C So) as LB. exists p'. split; [auto|]. split; [auto|].
  split; [unfold first_break, last_break; rewrite hd_nth, last_nth, B, neg_rev_nth by lia; replace (List.length (breaks p) - 1 - 0)%nat with (List.length (breaks p) - 1)%nat by lia; reflexivity|].
  split; [unfold first_break, last_break; rewrite hd_nth, last_nth, B, map_length, rev_length, neg_rev_nth by lia; replace (List.length (breaks p) - 1 - (List.length (breaks p) - 1))%nat with 0%nat by lia; reflexivity|].
  intros t. destruct (value_total p R C (- t) So) as (M & V & _). destruct (value_total p' R C t So') as (M' & V' & _). exists M, M'. split; [auto|]. split; [auto|]. intros r c Hr Hc J.
  destruct (value_total p' R C (- - t) So') as (M2 & V2 & _). rewrite <- (reverse_value p R C p' (- t) M M2 r c So E V V2 Hr Hc J).
  destruct (value_works p' R C t M' So' V') as (_ & _ & W). destruct (value_works p' R C (- - t) M2 So' V2) as (_ & _ & W2). destruct (spot p' R C t So') as (i & x & Cl & Sp & Hi).
  rewrite (W i x Cl Sp r c Hr Hc), (W2 i x); auto; [reflexivity|]. eapply closest_ext; [| | | |exact Cl]; try reflexivity. ring.
Qed.
Print Assumptions reverse_time.
Example changes_of_time : omap (fun M => m_at M 0%nat 0%nat) (tvalue (shiftRight bend 10) 12) = Ok 3 /\
  omap (fun M => Qred (m_at M 0%nat 0%nat)) (obind (ScaleTime bend 2) (fun q => tvalue q 4)) = Ok 3 /\
  omap (fun M => Qred (m_at M 0%nat 0%nat)) (obind (ReverseTime bend) (fun q => tvalue q (-(2)))) = Ok 3 /\ joins bend 0 0 0 0.
Proof.
  split; [vm_compute; reflexivity|]. split; [vm_compute; reflexivity|]. split; [vm_compute; reflexivity|].
  exists (curve (entry bend 0 0 0)), (curve (entry bend 1 0 0)). split; [constructor; reflexivity|]. split; [constructor; reflexivity|vm_compute; reflexivity].
Qed.

(** slice: the same values over its segments. *)
Theorem slice_values : forall p R C i n, sound p R C -> spaced (breaks p) -> (1 <= n)%nat -> (i + n <= List.length (polys p))%nat ->
  exists p', slice p (Z.of_nat i) (Z.of_nat n) = Ok p' /\ sound p' R C /\ List.length (polys p') = n /\ first_break p' = nth i (breaks p) 0 /\ last_break p' = nth (i + n) (breaks p) 0 /\
  forall t, nth i (breaks p) 0 <= t -> t < nth (i + n) (breaks p) 0 \/ ((i + n)%nat = List.length (polys p) /\ t == nth (i + n) (breaks p) 0) ->
    exists M M', tvalue p t = Ok M /\ tvalue p' t = Ok M' /\ agree R C M' M.
Proof.
  intros p R C i n So Sp Hn Hi. destruct (slice_ok p R C i n So Sp Hn Hi) as (p' & E & So' & L & Lb & Hb & He). exists p'. split; [auto|]. split; [auto|]. split; [auto|].
  split; [unfold first_break; rewrite hd_nth, Hb by lia; f_equal; lia|]. split; [unfold last_break; rewrite last_nth, Lb, Hb by lia; f_equal; lia|].
  intros t Lo Up. apply both; auto. intros M M' V V'. eapply (slice_value p R C i n p' t M M'); eauto.
Qed.
Print Assumptions slice_values.
Theorem slice_rejects : forall p R C i n, sound p R C -> ~ (0 <= i < Z.of_nat (List.length (polys p)))%Z \/ ~ (0 <= i + n - 1 < Z.of_nat (List.length (polys p)))%Z -> slice p i n = Throw.
Proof.
  intros p R C i n So H. unfold slice, range_check. rewrite (seg_number p R C So). destruct (_ && _) eqn:A; [|reflexivity]. cbn [throw_unless]. destruct ((0 <=? i + n - 1)%Z && _) eqn:B; [|reflexivity].
  apply andb_true_iff in A, B. destruct A as [A1 A2], B as [B1 B2]. apply Z.leb_le in A1, B1. apply Z.ltb_lt in A2, B2. lia.
Qed.
Print Assumptions slice_rejects.
(** An empty slice after the first segment is accepted, and what it returns has no start time and no value. *)
Theorem empty_slice_refuted : exists p p', sound p 1 1 /\ spaced (breaks p) /\ slice p 1 0 = Ok p' /\ polys p' = [] /\ breaks p' <> [] /\ start_time p' = Throw /\ (forall t, tvalue p' t = Throw).
Proof.
  exists bend, (Traj [1] []). split; [apply bend_sound|]. split; [apply bend_spaced|]. split; [vm_compute; reflexivity|]. split; [reflexivity|]. split; [discriminate|]. split; [vm_compute; reflexivity|].
  intros t. reflexivity.
Qed.
Print Assumptions empty_slice_refuted.
Example slice_example : omap breaks (slice bend 1 1) = Ok [1; 3] /\ omap (fun M => m_at M 0%nat 0%nat) (obind (slice bend 1 1) (fun q => tvalue q 2)) = Ok 3.
Proof. split; vm_compute; reflexivity. Qed.

(** ConcatenateInTime: before the end of the first trajectory its values, then those of the other one. *)
Theorem concatenate_values : forall p q R C, sound p R C -> sound q R C -> Qabs (first_break q - last_break p) < cmax (Qabs (last_break p)) 1 * kEpsilonTime ->
  exists s, concatenate p q = Ok s /\ sound s R C /\ List.length (polys s) = (List.length (polys p) + List.length (polys q))%nat /\
  forall t, (t < last_break p -> exists M N, tvalue s t = Ok M /\ tvalue p t = Ok N /\ agree R C M N) /\
    (last_break p <= t -> exists M N, tvalue s t = Ok M /\ tvalue q (t + (first_break q - last_break p)) = Ok N /\ agree R C M N).
Proof.
  intros p q R C So Sq T. destruct (concatenate_ok p q R C So Sq T) as (s & E & Ss & L & _). exists s. split; [auto|]. split; [auto|]. split; [auto|]. intros t.
  destruct (value_total s R C t Ss) as (M & V & A & B). split; intros Ht.
  - destruct (value_total p R C t So) as (N & VN & A' & B'). exists M, N. split; [auto|]. split; [auto|]. split; [auto|]. split; [auto|]. split; [auto|]. split; [auto|]. intros r c Hr Hc.
    destruct (concatenate_value p q R C s t So Sq E T M V r c Hr Hc) as [X _]. apply X; auto.
  - destruct (value_total q R C (t + (first_break q - last_break p)) Sq) as (N & VN & A' & B'). exists M, N. split; [auto|]. split; [auto|]. split; [auto|]. split; [auto|]. split; [auto|]. split; [auto|]. intros r c Hr Hc.
    destruct (concatenate_value p q R C s t So Sq E T M V r c Hr Hc) as [_ X]. apply X; auto.
Qed.
Print Assumptions concatenate_values.
Theorem concatenate_rejects : forall p q R C R' C', sound p R C -> sound q R' C' ->
  R <> R' \/ C <> C' \/ cmax (Qabs (last_break p)) 1 * kEpsilonTime <= Qabs (first_break q - last_break p) -> concatenate p q = Throw.
Proof.
  intros p q R C R' C' So Sq H. unfold concatenate. pose proof (polys_pos p R C So) as PP. replace (empty p) with false by (unfold empty; destruct (polys p); [simpl in PP; lia|reflexivity]).
  rewrite (rows_ok p R C So), (rows_ok q R' C' Sq), (cols_ok p R C So), (cols_ok q R' C' Sq), (start_ok q R' C' Sq), (end_ok p R C So). cbn [obind].
  destruct (Nat.eqb_spec R R'); [|reflexivity]. cbn [throw_unless]. destruct (Nat.eqb_spec C C'); [|reflexivity]. cbn [throw_unless]. destruct H as [H|[H|H]]; [congruence|congruence|].
  cbv zeta. rewrite (proj2 (Qltb_false _ _) H). reflexivity.
Qed.
Print Assumptions concatenate_rejects.
(** The documentation promises an exception when the times are not within kEpsilonTime; the tolerance is max(1, |end|) times that. *)
Theorem concatenate_tolerance_refuted : exists p q, sound p 1 1 /\ sound q 1 1 /\ ~ Qabs (first_break q - last_break p) <= kEpsilonTime /\ is_ok (concatenate p q) = true.
Proof.
  exists bend, (shiftRight bend (3 + 2 * kEpsilonTime)). split; [apply bend_sound|]. split; [apply shift_ok, bend_sound|]. split; vm_compute; [intros H; apply H; reflexivity|reflexivity].
Qed.
Print Assumptions concatenate_tolerance_refuted.
Example concatenate_example : omap breaks (concatenate bend (shiftRight bend 3)) = Ok [0; 1; 3; 4; 6] /\
  omap (fun M => m_at M 0%nat 0%nat) (obind (concatenate bend (shiftRight bend 3)) (fun q => tvalue q 5)) = Ok 3.
Proof. split; vm_compute; reflexivity. Qed.

(** AppendCubicHermiteSegment: old values up to the old end, then a cubic from the old final value and slope to the given ones. *)
Theorem append_cubic_values : forall p R C time y yd, sound p R C -> kEpsilonTime <= time - last_break p ->
  m_rows y = R -> m_cols y = C -> m_rows yd = R -> m_cols yd = C ->
  exists s, append_cubic p time y yd = Ok s /\ sound s R C /\ last_break s = time /\ remove_final s = Ok p /\
  (forall t, t <= last_break p -> exists M N, tvalue s t = Ok M /\ tvalue p t = Ok N /\ agree R C M N) /\
  (forall t, time <= t -> exists M, tvalue s t = Ok M /\ agree R C M y) /\ (exists M, EvalDerivative s time 1 = Ok M /\ agree R C M yd) /\
  (forall r c, (r < R)%nat -> (c < C)%nat -> joins s r c 0 (List.length (polys p) - 1) /\ joins s r c 1 (List.length (polys p) - 1)).
Proof.
  intros p R C time y yd So Sp Y1 Y2 D1 D2. destruct (append_cubic_ok p R C time y yd So Sp Y1 Y2 D1 D2) as (m & E & Lt & Mr & Mc & Hm). pose proof eps_pos as EP. set (s := Traj (breaks p ++ [time]) (polys p ++ [m])) in *.
  assert (G : forall r c, (r < R)%nat -> (c < C)%nat -> good (m_at m r c) /\ p_univ (m_at m r c) = true) by (intros r c Hr Hc; destruct (Hm r c Hr Hc) as (? & ? & _); auto).
  destruct (extend_ok p R C time m So Lt Mr Mc G) as (Ss & Eb & Et & El & E1 & E2 & Fs & Ls). pose proof (extend_value p R C time m So Lt Mr Mc G) as EV. fold s in EV, Ss, Eb, Et, E1, E2, Fs, Ls.
  pose proof (len_breaks p R C So) as LB. pose proof (polys_pos p R C So) as PP. assert (Nz : ~ time - last_break p == 0) by lra.
  exists s. split; [exact E|]. split; [exact Ss|]. split; [exact Ls|]. split; [eapply extend_remove; eauto|]. split; [|split; [|split]].
  - intros t Ht. destruct (value_total s R C t Ss) as (M & V & A & B). destruct (value_total p R C t So) as (N & VN & A' & B'). exists M, N. split; [auto|]. split; [auto|].
    split; [auto|]. split; [auto|]. split; [auto|]. split; [auto|]. intros r c Hr Hc. destruct (EV t M V r c Hr Hc) as (X1 & X2 & _). destruct (Qlt_le_dec t (last_break p)) as [Lo|Hi]; [auto|].
    destruct (Hm r c Hr Hc) as (_ & _ & s0 & sd & S0 & _ & Em). rewrite X2 by lra. rewrite Em. destruct (cubic_values (time - last_break p) s0 (m_at y r c) sd (m_at yd r c) Nz) as (V0 & _).
    assert (Ett : t == last_break p) by lra. rewrite (curve_proper _ (t - last_break p) 0) by lra. rewrite V0.
    destruct (value_total p R C (last_break p) So) as (N2 & VN2 & _). rewrite <- (S0 N2 VN2).
    destruct (value_works p R C t N So VN) as (_ & _ & W). destruct (value_works p R C _ N2 So VN2) as (_ & _ & W2). destruct (spot p R C t So) as (i & x & Cl & Si & Hi'). rewrite (W i x Cl Si r c Hr Hc). apply W2; auto.
    eapply closest_ext; [| | | |exact Cl]; try reflexivity. exact Ett.
  - intros t Ht. destruct (value_total s R C t Ss) as (M & V & A & B). exists M. split; [auto|]. split; [auto|]. split; [auto|]. split; [auto|]. split; [auto|]. intros r c Hr Hc.
    destruct (EV t M V r c Hr Hc) as (_ & _ & X3). rewrite X3 by auto. destruct (Hm r c Hr Hc) as (_ & _ & s0 & sd & _ & _ & Em). rewrite Em. apply (cubic_values (time - last_break p) s0 (m_at y r c) sd (m_at yd r c) Nz).
  - destruct (eval_works s R C time 1 Ss) as (M & V & A & B & _). exists M. split; [auto|]. split; [auto|]. split; [auto|]. split; [auto|]. split; [auto|]. intros r c Hr Hc.
    destruct (Hm r c Hr Hc) as (_ & _ & s0 & sd & _ & _ & Em). destruct (cubic_values (time - last_break p) s0 (m_at y r c) sd (m_at yd r c) Nz) as (_ & _ & g & Dg & _ & G1). rewrite <- Em in Dg.
    rewrite (eval_derives s R C time 1 M Ss V (List.length (polys p)) time) with (g := g); auto.
    + rewrite Eb by lia. rewrite El. exact G1.
    + apply closest_self. rewrite Fs, Ls. pose proof (first_le_last p R C So). lra.
    + rewrite <- Et. apply span_last; [apply Ss|]. unfold s. cbn [breaks]. rewrite app_length. simpl. lia.
    + rewrite E2. exact Dg.
  - intros r c Hr Hc. destruct (Hm r c Hr Hc) as (_ & _ & s0 & sd & S0 & S1 & Em). destruct (cubic_values (time - last_break p) s0 (m_at y r c) sd (m_at yd r c) Nz) as (V0 & _ & g & Dg & G0 & _). rewrite <- Em in Dg, V0.
    destruct (sound_entry p R C (List.length (polys p) - 1) r c So ltac:(lia) Hr Hc) as [Gp Up].
    assert (K : forall k h, derives k (curve (m_at m r c)) h -> (forall M, EvalDerivative p (last_break p) k = Ok M -> m_at M r c == h 0) -> joins s r c k (List.length (polys p) - 1)).
    { intros k h Dh Hh. destruct (eval_works p R C (last_break p) k So) as (M & V & _). exists (dsum k (p_monos (entry p (List.length (polys p) - 1) r c))), h.
      rewrite E1 by lia. split; [apply dsum_of_curve; auto|]. replace (S (List.length (polys p) - 1)) with (List.length (polys p)) by lia. rewrite E2. split; [exact Dh|].
      rewrite !Eb by lia. rewrite El. rewrite <- (Hh M V). symmetry. apply (end_derives p R C r c k _ M So V Hr Hc). apply dsum_of_curve; auto. }
    split; [apply (K 0%nat (curve (m_at m r c))); [constructor; reflexivity|intros M V; rewrite V0; apply S0; exact V]|apply (K 1%nat g); [exact Dg|intros M V; rewrite G0; apply S1; exact V]].
Qed.
Print Assumptions append_cubic_values.
Example append_cubic_example : omap (fun M => Qred (m_at M 0%nat 0%nat)) (obind (append_cubic bend 4 (scalar_mat 7) (scalar_mat 5)) (fun q => tvalue q 4)) = Ok 7 /\
  omap (fun M => Qred (m_at M 0%nat 0%nat)) (obind (append_cubic bend 4 (scalar_mat 7) (scalar_mat 5)) (fun q => EvalDerivative q 4 1)) = Ok 5 /\
  omap (fun M => Qred (m_at M 0%nat 0%nat)) (obind (append_cubic bend 4 (scalar_mat 7) (scalar_mat 5)) (fun q => EvalDerivative q 3 1)) = Ok (-(1)).
Proof. repeat split; vm_compute; reflexivity. Qed.

(** AppendFirstOrderSegment: a straight line from the old final value to the given one. *)
Theorem append_linear_values : forall p R C time y, sound p R C -> last_break p < time -> m_rows y = R -> m_cols y = C ->
  exists s, append_linear p time y = Ok s /\ sound s R C /\ last_break s = time /\ remove_final s = Ok p /\
  (forall t, t < last_break p -> exists M N, tvalue s t = Ok M /\ tvalue p t = Ok N /\ agree R C M N) /\
  (forall t, last_break p <= t <= time -> exists M N, tvalue s t = Ok M /\ tvalue p (last_break p) = Ok N /\ m_rows M = R /\ m_cols M = C /\
     forall r c, (r < R)%nat -> (c < C)%nat -> m_at M r c == m_at N r c + (t - last_break p) / (time - last_break p) * (m_at y r c - m_at N r c)) /\
  (forall t, time <= t -> exists M, tvalue s t = Ok M /\ agree R C M y).
Proof.
  intros p R C time y So Lt Y1 Y2. destruct (append_linear_ok p R C time y So Lt Y1 Y2) as (m & E & Mr & Mc & Hm). set (s := Traj (breaks p ++ [time]) (polys p ++ [m])) in *.
  assert (G : forall r c, (r < R)%nat -> (c < C)%nat -> good (m_at m r c) /\ p_univ (m_at m r c) = true) by (intros r c Hr Hc; destruct (Hm r c Hr Hc) as (? & ? & _); auto).
  destruct (extend_ok p R C time m So Lt Mr Mc G) as (Ss & _ & _ & _ & _ & _ & _ & Ls). pose proof (extend_value p R C time m So Lt Mr Mc G) as EV. fold s in EV, Ss, Ls.
  exists s. split; [exact E|]. split; [exact Ss|]. split; [exact Ls|]. split; [eapply extend_remove; eauto|]. destruct (value_total p R C (last_break p) So) as (N & VN & A' & B'). split; [|split].
  - intros t Ht. destruct (value_total s R C t Ss) as (M & V & A & B). destruct (value_total p R C t So) as (N1 & V1 & A1 & B1). exists M, N1. split; [auto|]. split; [auto|].
    split; [auto|]. split; [auto|]. split; [auto|]. split; [auto|]. intros r c Hr Hc. destruct (EV t M V r c Hr Hc) as (X1 & _). auto.
  - intros t Ht. destruct (value_total s R C t Ss) as (M & V & A & B). exists M, N. split; [auto|]. split; [auto|]. split; [auto|]. split; [auto|]. intros r c Hr Hc. destruct (EV t M V r c Hr Hc) as (_ & X2 & _).
    rewrite X2 by auto. destruct (Hm r c Hr Hc) as (_ & _ & s0 & S0 & Em). rewrite Em. destruct (from_coefficients [s0; (m_at y r c - s0) / (time - last_break p)]) as (_ & _ & H). rewrite H. cbn [horner]. rewrite <- (S0 N VN). field. lra.
  - intros t Ht. destruct (value_total s R C t Ss) as (M & V & A & B). exists M. split; [auto|]. split; [auto|]. split; [auto|]. split; [auto|]. split; [auto|]. intros r c Hr Hc. destruct (EV t M V r c Hr Hc) as (_ & _ & X3).
    rewrite X3 by auto. destruct (Hm r c Hr Hc) as (_ & _ & s0 & S0 & Em). rewrite Em. destruct (from_coefficients [s0; (m_at y r c - s0) / (time - last_break p)]) as (_ & _ & H). rewrite H. cbn [horner]. field. lra.
Qed.
Print Assumptions append_linear_values.
Example append_linear_example : omap (fun M => Qred (m_at M 0%nat 0%nat)) (obind (append_linear bend 5 (scalar_mat 10)) (fun q => tvalue q 4)) = Ok 6.
Proof. vm_compute. reflexivity. Qed.
(** Segments shorter than kEpsilonTime, which the constructors refuse, can be appended; slicing the result then throws. *)
Theorem append_spacing_refuted : exists p s, sound p 1 1 /\ spaced (breaks p) /\ append_linear p (3 + kEpsilonTime * (1 # 2)) (scalar_mat 2) = Ok s /\ sound s 1 1 /\ ~ spaced (breaks s) /\ slice s 0 3 = Throw.
Proof.
  destruct (append_linear_values bend 1 1 (3 + kEpsilonTime * (1 # 2)) (scalar_mat 2) bend_sound) as (s & E & Ss & _); [vm_compute; reflexivity|reflexivity|reflexivity|].
  exists bend, s. split; [apply bend_sound|]. split; [apply bend_spaced|]. split; [exact E|]. split; [exact Ss|]. assert (B : breaks s = [0; 1; 3; 3 + kEpsilonTime * (1 # 2)]).
  { assert (X : omap breaks (append_linear bend (3 + kEpsilonTime * (1 # 2)) (scalar_mat 2)) = Ok [0; 1; 3; 3 + kEpsilonTime * (1 # 2)]) by (vm_compute; reflexivity). rewrite E in X. cbn [omap] in X. congruence. }
  split.
  - rewrite B. intros H. specialize (H 2%nat ltac:(simpl; lia)). vm_compute in H. apply H. reflexivity.
  - assert (X : obind (append_linear bend (3 + kEpsilonTime * (1 # 2)) (scalar_mat 2)) (fun q => slice q 0 3) = Throw) by (vm_compute; reflexivity). rewrite E in X. exact X.
Qed.
Print Assumptions append_spacing_refuted.

(** RemoveFinalSegment: the values before the removed segment stay. *)
Theorem remove_final_values : forall p R C, sound p R C -> (2 <= List.length (polys p))%nat -> exists s, remove_final p = Ok s /\ sound s R C /\ last_break s = nth (List.length (polys p) - 1) (breaks p) 0 /\
  forall t, t < last_break s -> exists M N, tvalue p t = Ok M /\ tvalue s t = Ok N /\ agree R C M N.
Proof.
  intros p R C So L2. pose proof (len_breaks p R C So) as LB. exists (Traj (removelast (breaks p)) (removelast (polys p))). split.
  { unfold remove_final, empty. destruct (polys p); [simpl in L2; lia|reflexivity]. }
  set (s := Traj (removelast (breaks p)) (removelast (polys p))).
  assert (Np : polys p <> []) by (intros X; rewrite X in L2; simpl in L2; lia). assert (Nb : breaks p <> []) by (intros X; rewrite X in LB; simpl in LB; lia).
  pose proof (app_removelast_last (Mat 0 0 (fun _ _ => poly_zero)) Np) as Ep. pose proof (app_removelast_last 0 Nb) as Eb.
  set (m := last (polys p) (Mat 0 0 (fun _ _ => poly_zero))) in *. set (time := last (breaks p) 0) in *.
  assert (Lp : List.length (removelast (polys p)) = (List.length (polys p) - 1)%nat) by apply removelast_len. assert (Lb : List.length (removelast (breaks p)) = List.length (polys p)) by (rewrite removelast_len; lia).
  assert (Ss : sound s R C).
  { apply sound_build; [lia|intros X; rewrite X in Lp; simpl in Lp; lia| |].
    - intros i Hi. rewrite Lb in Hi. rewrite !nth_removelast by lia. assert (RI : rising (breaks p)) by apply So. apply RI. lia.
    - intros i m0 E. assert (i < List.length (removelast (polys p)))%nat by (apply nth_error_Some; congruence). apply (sound_seg p R C i m0 So). rewrite Ep, nth_error_app1 by auto. exact E. }
  assert (Ls : last_break s = nth (List.length (polys p) - 1) (breaks p) 0) by (unfold last_break, s; cbn [breaks]; rewrite last_nth, Lb, nth_removelast by lia; reflexivity).
  split; [exact Ss|]. split; [exact Ls|]. intros t Ht. destruct (value_total p R C t So) as (M & V & A & B). destruct (value_total s R C t Ss) as (N & VN & A' & B'). exists M, N. split; [auto|]. split; [auto|].
  split; [auto|]. split; [auto|]. split; [auto|]. split; [auto|]. intros r c Hr Hc.
  assert (Em : nth_error (polys p) (List.length (polys p) - 1) = Some m) by (rewrite Ep at 1; rewrite nth_error_app2 by lia; rewrite Lp, Nat.sub_diag; reflexivity).
  destruct (sound_seg p R C _ m So Em) as (Mr & Mc & G).
  assert (Lt : last_break s < time). { rewrite Ls. unfold time. rewrite last_nth. replace (List.length (breaks p) - 1)%nat with (S (List.length (polys p) - 1)) by lia. assert (RI : rising (breaks p)) by apply So. apply RI. lia. }
  assert (Ex : p = Traj (breaks s ++ [time]) (polys s ++ [m])) by (unfold s; cbn [breaks polys]; rewrite <- Ep, <- Eb; destruct p; reflexivity). rewrite Ex in V.
  destruct (extend_value s R C time m Ss Lt Mr Mc G t M V r c Hr Hc) as (X & _). apply X; auto.
Qed.
Print Assumptions remove_final_values.
(** Removing the only segment leaves a break behind: empty(), but with times. *)
Theorem remove_only_refuted : exists p s, sound p 1 1 /\ remove_final p = Ok s /\ empty s = true /\ breaks s <> [] /\ start_time s = Throw.
Proof.
  destruct (slice_ok bend 1 1 0 1 bend_sound bend_spaced) as (p & E & So & _); [lia|cbn; lia|]. exists p. assert (X : slice bend 0 1 = Ok p) by exact E. vm_compute in X. injection X as <-.
  eexists. split; [exact So|]. split; [vm_compute; reflexivity|]. split; [reflexivity|]. split; [discriminate|vm_compute; reflexivity].
Qed.
Print Assumptions remove_only_refuted.
