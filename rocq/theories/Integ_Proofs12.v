(** A problem of positive dimension keeps a state of positive dimension. *)
From Coq Require Import Reals List Bool Lra Lia PeanoNat.
From Verif Require Import Integ_Model Integ_Spec Integ_Proofs Integ_Proofs2 Integ_Proofs3 Integ_Proofs4 Integ_Proofs5 Integ_Proofs6.
Import ListNotations.
Local Open Scope R_scope.

Definition nonempty (s : istate) : Prop := xc s <> Some [].

Lemma rk3_nonempty : forall f k t h x x1 e, rk3 f k t h x = Some (x1, e) -> length x1 = length x.
Proof.
  intros f k t h x x1 e H. unfold rk3 in H. destruct (f k t x); [| discriminate].
  match type of H with match ?u with _ => _ end = _ => destruct u end; [| discriminate].
  match type of H with match ?u with _ => _ end = _ => destruct u end; [| discriminate].
  injection H as <- _. rewrite ? axpy_length. reflexivity.
Qed.
Lemma step_nonempty : forall f s h r s1, nonempty s -> step f s h = (r, s1) -> nonempty s1.
Proof.
  intros f s h r s1 N H. destruct (step_context f s h r s1 H) as [[e [D _]] _].
  intro X1. unfold do_step in D. destruct (xc s) as [x |] eqn:X.
  - destruct (rk3 f (param s) (time s) h x) as [[x2 e2] |] eqn:RK; apply (f_equal snd) in D; apply (f_equal xc) in D; cbn in D; rewrite X1 in D; [| discriminate].
    injection D as ->. apply rk3_nonempty in RK. apply N. destruct x; [exact X | discriminate].
  - apply (f_equal snd) in D. apply (f_equal xc) in D. cbn in D. congruence.
Qed.
Lemma step_once_nonempty : forall n f s hm a at0 r s', nonempty s -> step_once n f s hm a at0 = (r, s') -> nonempty s'.
Proof.
  induction n as [| n IH]; intros f s hm a at0 r s' N H; cbn [step_once] in H; [injection H as _ <-; exact N |].
  destruct (attempt_size s hm a) as [lim h]. destruct (step f s h) as [r1 s1] eqn:ES. assert (N1 := step_nonempty f s h r1 s1 N ES).
  destruct r1 as [e1 | |]; [| injection H as _ <-; exact N1 | injection H as _ <-; exact N1].
  destruct (calc_adjusted s1 e1 h at0) as [[[[] next] |] at2].
  - injection H as _ <-. destruct lim; exact N1.
  - apply (IH f (revert s s1) hm next at2 r s'); [exact N | exact H].
  - injection H as _ <-. exact N1.
Qed.
Lemma no_further_nonempty : forall n f s pub upd bnd r s', nonempty s -> no_further n f s pub upd bnd = (r, s') -> nonempty s'.
Proof.
  intros n f s pub upd bnd r s' N H. unfold no_further in H. destruct (negb (initialized s)); [injection H as _ <-; exact N |].
  destruct (_ || _); [injection H as _ <-; exact N |]. destruct (step_target s pub upd bnd) as [r0 [t |]]; [| injection H as _ <-; exact N].
  assert (XC : forall A (a b : A), match xc s with Some [] => a | _ => b end = b).
  { unfold nonempty in N. destruct (xc s) as [[| y l] |]; [contradiction | reflexivity | reflexivity]. }
  rewrite XC in H. destruct (ltb (t - time s) 0); [injection H as _ <-; exact N |].
  destruct (first_attempt s) as [a |]; [| injection H as _ <-; exact N].
  destruct (step_once n f s (t - time s) a false) as [r1 s1] eqn:SO. assert (N1 := step_once_nonempty _ _ _ _ _ _ _ _ N SO).
  destruct r1 as [full | |]; [| injection H as _ <-; exact N1 | injection H as _ <-; exact N1].
  destruct (full || leb t (time s1)); injection H as _ <-; exact N1.
Qed.
Lemma to_time_nonempty : forall n f s tf r s', nonempty s -> to_time n f s tf = (r, s') -> nonempty s'.
Proof.
  induction n as [| n IH]; intros f s tf r s' N H; cbn [to_time] in H; [injection H as _ <-; exact N |]. cbv zeta in H.
  match type of H with match no_further n f s None None ?b with _ => _ end = _ => destruct (no_further n f s None None b) as [r1 s1] eqn:NF end.
  assert (N1 := no_further_nonempty _ _ _ _ _ _ _ _ N NF).
  destruct r1 as [x | |]; [| injection H as _ <-; exact N1 | injection H as _ <-; exact N1].
  destruct (ltb (time s1) tf); [apply (IH f s1 tf r s' N1 H) | injection H as _ <-; exact N1].
Qed.
Lemma initialize_nonempty : forall s r s', nonempty s -> initialize s = (r, s') -> nonempty s'.
Proof. intros s r s' N H. unfold initialize in H. destruct (init_settings (sets s)); injection H as _ <-; exact N. Qed.

Lemma sanitize_nonempty : forall p tf w u, f_x0 (defaults p) <> [] -> sanitize p tf w = Some u -> f_x0 u <> [].
Proof.
  intros p tf w u N S. destruct (sanitize_facts p tf w u S) as [_ [_ [L _]]]. intro E. rewrite E in L.
  destruct (f_x0 (defaults p)); [contradiction | discriminate].
Qed.
Lemma history_nonempty : forall f v c p, f_x0 v <> [] -> history f v c p -> nonempty (integ p).
Proof.
  intros f v c p N H.
  assert (RS : forall p tf w u, defaults p = v -> sanitize p tf w = Some u -> nonempty (integ (reset_cached p u))).
  { intros q tf w u D S E. cbn in E. injection E as E. rewrite <- D in N. apply (sanitize_nonempty q tf w u N S E). }
  induction H as [| n p tf w r p' H IH S M | n p tf w r p' H IH S M].
  - intro E. cbn in E. injection E as E. contradiction.
  - assert (D := history_defaults f v c p H). unfold solve in S. destruct (sanitize p tf w) as [u |] eqn:SV; [| injection S as _ <-; exact IH].
    set (p1 := if negb (same_values u (current p)) || ltb tf (time (integ p)) then reset_cached p u else p) in *.
    assert (N1 : nonempty (integ p1)) by (unfold p1; destruct (_ || _); [apply (RS p tf w u D SV) | exact IH]). cbv zeta in S.
    assert (N2 : forall r0 s1, (if initialized (integ p1) then (Ret tt, integ p1) else initialize (integ p1)) = (r0, s1) -> nonempty s1).
    { intros r0 s1 E. destruct (initialized (integ p1)); [injection E as _ <-; exact N1 | apply (initialize_nonempty _ _ _ N1 E)]. }
    destruct (if initialized (integ p1) then (Ret tt, integ p1) else initialize (integ p1)) as [r0 s1]. specialize (N2 r0 s1 eq_refl).
    destruct r0; [| injection S as _ <-; exact N2 | injection S as _ <-; exact N2].
    destruct (to_time n f s1 tf) as [r2 s2] eqn:TT. assert (N3 := to_time_nonempty _ _ _ _ _ _ N2 TT).
    destruct r2; injection S as _ <-; exact N3.
  - assert (D := history_defaults f v c p H). unfold dense_solve in S. destruct (sanitize p tf w) as [u |] eqn:SV; [| injection S as _ <-; exact IH].
    assert (N1 := RS p tf w u D SV). cbv zeta in S.
    destruct (initialize (integ (reset_cached p u))) as [r1 s1] eqn:EI. assert (N2 := initialize_nonempty _ _ _ N1 EI).
    destruct r1; [| injection S as _ <-; exact N2 | injection S as _ <-; exact N2].
    assert (N3 : forall r2 s2, start_dense s1 = (r2, s2) -> nonempty s2).
    { intros r2 s2 E. unfold start_dense in E.
      repeat match type of E with
      | (if ?c then _ else _) = _ => destruct c
      | match ?c with _ => _ end = _ => destruct c
      end; injection E as _ <-; exact N2. }
    destruct (start_dense s1) as [r2 s2]. specialize (N3 r2 s2 eq_refl).
    destruct r2; [| injection S as _ <-; exact N3 | injection S as _ <-; exact N3].
    destruct (to_time n f s2 tf) as [r3 s3] eqn:TT. assert (N4 := to_time_nonempty _ _ _ _ _ _ N3 TT).
    destruct r3; [| injection S as _ <-; exact N4 | injection S as _ <-; exact N4].
    destruct (dense s3) as [[| g d] |]; injection S as _ <-; exact N4.
Qed.

(** The value of a returning Solve has a positive dimension. *)
Lemma solve_nonempty : forall n f v c p tf w x p', f_x0 v <> [] -> history f v c p -> solve n f p tf w = (Ret (Some x), p') -> x <> [].
Proof.
  intros n f v c p tf w x p' N H S. assert (H' : history f v c p') by (apply (hist_solve f v c n p tf w _ p' H S); discriminate).
  assert (Q := history_nonempty f v c p' N H'). intros ->. apply Q.
  unfold solve in S. destruct (sanitize p tf w) as [u |]; [| discriminate]. cbv zeta in S.
  match type of S with (let '(_, _) := ?x in _) = _ => destruct x as [[a | |] s1] end; try discriminate.
  destruct (to_time n f s1 tf) as [[b | |] s2]; try discriminate. injection S as S <-. exact S.
Qed.
