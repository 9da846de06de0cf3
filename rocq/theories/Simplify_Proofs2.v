(** Proofs for C49: edge maps, adjacency and contours. *)
From Coq Require Import List QArith Bool Arith Lia Permutation.
From Verif Require Import Base Maps Mesh_Model Mesh_Spec Mesh_Proofs Simplify_Model Simplify_Spec Simplify_Proofs.
Import ListNotations.
Local Open Scope nat_scope.

Lemma edge_eqb_spec a b : reflect (a = b) (edge_eqb a b).
Proof.
  destruct a as [a1 a2], b as [b1 b2]. unfold edge_eqb. cbn. destruct (Nat.eqb_spec a1 b1), (Nat.eqb_spec a2 b2); cbn; constructor; congruence.
Qed.
Lemma next_mod j n : j < n -> (j + 1) mod n = if Nat.eqb (S j) n then 0 else S j.
Proof.
  intro L. destruct (Nat.eqb_spec (S j) n) as [<-|D]; [replace (j + 1) with (S j) by lia; apply Nat.mod_same; lia|]. replace (j + 1) with (S j) by lia. apply Nat.mod_small. lia.
Qed.
Lemma next_lt j n : j < n -> (j + 1) mod n < n.
Proof. intro. apply Nat.mod_upper_bound. lia. Qed.
Lemma side_edge f j a b : side f j a b <-> j < length f /\ edge_at f j = (a, b).
Proof.
  unfold side, edge_at. split.
  - intros (ca & cb & A & B & <- & <-). assert (L : j < length f) by (apply nth_error_Some; congruence). split; auto. rewrite (next_mod j _ L).
    rewrite (nth_error_nth _ _ _ A), (nth_error_nth _ _ _ B). auto.
  - intros [L Ee]. inversion Ee; subst. exists (nth j f (0, 0)), (nth ((j + 1) mod length f) f (0, 0)).
    split; [apply nth_error_nth'; auto|]. split; [|auto]. rewrite <- (next_mod j _ L). apply nth_error_nth'. apply next_lt. auto.
Qed.

(** Half edges. *)
Definition half (fs : list index_face) (h : nat * nat) : Prop := fst h < length fs /\ snd h < length (nth (fst h) fs []).
Definition dir (fs : list index_face) (h : nat * nat) : edge := edge_at (nth (fst h) fs []) (snd h).
Lemma face_nth (fs : list index_face) i f : nth_error fs i = Some f -> @nth (list (nat * nat)) i fs [] = f.
Proof. apply nth_error_nth. Qed.
Lemma side_of_half fs h a b : side_of fs h a b <-> half fs h /\ dir fs h = (a, b).
Proof.
  unfold side_of, half, dir. split.
  - intros (f & N & D). rewrite ?(face_nth _ _ _ N). rewrite ?(nth_error_nth fs (fst h) [] N). apply side_edge in D. destruct D as [L D]. split; auto. split; auto. apply nth_error_Some. congruence.
  - intros [[L1 L2] D]. exists (nth (fst h) fs []). split; [apply nth_error_nth'; auto|]. apply side_edge. auto.
Qed.
Lemma glued_dir fs h k : glued fs h k <-> half fs h /\ half fs k /\ dir fs k = reverse (dir fs h).
Proof.
  unfold glued. split.
  - intros (a & b & A & B). apply side_of_half in A, B. destruct A as [A Ad], B as [B Bd]. rewrite Ad, Bd. auto.
  - intros (A & B & D). exists (fst (dir fs h)), (snd (dir fs h)). rewrite !side_of_half. split; split; auto; try apply surjective_pairing.
Qed.

(** ** The inverse edge map *)
Fixpoint entries (k : nat) (fs : list index_face) : list (edge * face_edge) :=
  match fs with [] => [] | f :: fs' => map (fun j => (edge_at f j, (k, j))) (seq 0 (length f)) ++ entries (S k) fs' end.
Lemma in_entries k fs e h : In (e, h) (entries k fs) <-> k <= fst h /\ half fs (fst h - k, snd h) /\ dir fs (fst h - k, snd h) = e.
Proof.
  revert k. unfold half, dir. induction fs as [|f fs IH]; intro k; cbn [entries fst snd length]; [cbn; lia|]. rewrite in_app_iff, in_map_iff, IH. destruct h as [g j]. cbn [fst snd]. split.
  - intros [(i & Hi & I)|(L & (A & B) & D)].
    + inversion Hi; subst. apply in_seq in I. rewrite Nat.sub_diag. cbn. split; [lia|]. split; auto. split; lia.
    + split; [lia|]. replace (g - k) with (S (g - S k)) by lia. cbn. split; auto. split; [lia|auto].
  - intros (L & (A & B) & D). destruct (Nat.eq_dec g k) as [->|N].
    + left. exists j. rewrite Nat.sub_diag in *. cbn in *. rewrite D. split; auto. apply in_seq. lia.
    + right. split; [lia|]. replace (g - k) with (S (g - S k)) in * by lia. cbn in *. split; auto. split; [lia|auto].
Qed.
Lemma mhas_in e (m : list (edge * face_edge)) : mhas edge_eqb e m = true <-> In e (map fst m).
Proof.
  unfold mhas. induction m as [|[x v] m IH]; cbn; [split; [discriminate|tauto]|]. destruct (edge_eqb_spec e x) as [->|N]; [tauto|]. rewrite IH. split; [auto|intros [X|X]; auto; congruence].
Qed.
Lemma edge_loop_spec k f js (m : list (edge * face_edge)) : NoDup (map fst m) ->
  (NoDup (map fst (m ++ map (fun j => (edge_at f j, (k, j))) js)) /\ edge_loop k f js m = Ok (m ++ map (fun j => (edge_at f j, (k, j))) js)) \/
  (~ NoDup (map fst (m ++ map (fun j => (edge_at f j, (k, j))) js)) /\ edge_loop k f js m = Throw).
Proof.
  revert m. induction js as [|j js IH]; intros m N; cbn [edge_loop map]; [left; rewrite app_nil_r; auto|].
  destruct (mhas edge_eqb (edge_at f j) m) eqn:Hm; cbn [negb throw_unless].
  - right. split; [|reflexivity]. apply mhas_in in Hm. rewrite map_app. cbn. intro X. apply NoDup_remove_2 in X. apply X. apply in_app_iff. left. exact Hm.
  - specialize (IH (m ++ [(edge_at f j, (k, j))])). rewrite <- app_assoc in IH. cbn [app] in IH. apply IH. rewrite map_app. cbn.
    apply Permutation_NoDup with (edge_at f j :: map fst m); [apply Permutation_cons_append|]. constructor; auto. intro X. apply mhas_in in X. congruence.
Qed.
Lemma NoDup_app_l {A} (l m : list A) : NoDup (l ++ m) -> NoDup l.
Proof. induction l; intro H; [constructor|]. inversion H; subst. constructor; auto. intro I. apply H2. apply in_app_iff. auto. Qed.
Lemma face_loop_spec k fs (m : list (edge * face_edge)) : NoDup (map fst m) ->
  (NoDup (map fst (m ++ entries k fs)) /\ face_loop k fs m = Ok (m ++ entries k fs)) \/ (~ NoDup (map fst (m ++ entries k fs)) /\ face_loop k fs m = Throw).
Proof.
  revert k m. induction fs as [|f fs IH]; intros k m N; cbn [face_loop entries]; [left; rewrite app_nil_r; auto|].
  destruct (edge_loop_spec k f (seq 0 (length f)) m N) as [[A ->]|[A ->]]; cbn [obind].
  - rewrite app_assoc. apply IH. auto.
  - right. split; auto. intro X. apply A. rewrite app_assoc, map_app in X. eapply NoDup_app_l; eauto.
Qed.
Lemma NoDup_nth_fst {A B} (l : list (A * B)) : NoDup l -> (forall x y z, In (x, y) l -> In (x, z) l -> y = z) -> NoDup (map fst l).
Proof.
  induction l as [|[x y] l IH]; intros N H; [constructor|]. inversion N; subst. cbn. constructor.
  - intro I. apply in_map_iff in I. destruct I as ([x' z] & Hx & I). cbn in Hx. subst. assert (y = z) by (eapply H; [left; reflexivity|right; eauto]). subst. auto.
  - apply IH; auto. intros a b c P Q. eapply H; right; eauto.
Qed.
Lemma entries_NoDup k fs : NoDup (entries k fs).
Proof.
  revert k. induction fs as [|f fs IH]; intro k; cbn [entries]; [constructor|].
  assert (X : forall l m : list (edge * face_edge), NoDup l -> NoDup m -> (forall x, In x l -> ~ In x m) -> NoDup (l ++ m)).
  { clear. induction l; intros m A B C; auto. inversion A; subst. cbn. constructor; [intro I; apply in_app_iff in I; destruct I as [I|I]; [auto|eapply C; [left; reflexivity|auto]]|]. apply IHl; auto. intros x I. apply C. right. auto. }
  apply X; auto.
  - apply FinFun.Injective_map_NoDup; [|apply seq_NoDup]. intros i j Hij. inversion Hij. auto.
  - intros [e [g j]] I J. apply in_map_iff in I. destruct I as (i & Hi & _). inversion Hi; subst. apply in_entries in J. cbn in J. lia.
Qed.
Lemma well_oriented_entries fs : well_oriented fs <-> NoDup (map fst (entries 0 fs)).
Proof.
  split.
  - intro W. apply NoDup_nth_fst; [apply entries_NoDup|]. intros [a b] h k H K. apply in_entries in H, K. rewrite Nat.sub_0_r in H, K.
    destruct H as (_ & H & Hd), K as (_ & K & Kd). destruct h, k. cbn [fst snd] in *. eapply W; apply side_of_half; eauto.
  - intros N h k a b H K. apply side_of_half in H, K. destruct H as [H Hd], K as [K Kd].
    assert (I : In ((a, b), h) (entries 0 fs)) by (apply in_entries; rewrite Nat.sub_0_r; destruct h; cbn; split; [lia|auto]).
    assert (J : In ((a, b), k) (entries 0 fs)) by (apply in_entries; rewrite Nat.sub_0_r; destruct k; cbn; split; [lia|auto]).
    clear - N I J. induction (entries 0 fs) as [|[x y] l IH]; [destruct I|]. cbn in N. inversion N; subst. destruct I as [I|I], J as [J|J]; try (inversion I; subst); try (inversion J; subst); auto.
    + exfalso. apply H1. apply in_map_iff. exists ((a, b), k). auto.
    + exfalso. apply H1. apply in_map_iff. exists ((a, b), h). auto.
Qed.
Lemma inverse_map_spec fs : (well_oriented fs /\ ComputeInverseFaceEdgeMap fs = Ok (entries 0 fs)) \/ (~ well_oriented fs /\ ComputeInverseFaceEdgeMap fs = Throw).
Proof.
  unfold ComputeInverseFaceEdgeMap. rewrite well_oriented_entries. destruct (face_loop_spec 0 fs [] (NoDup_nil _)) as [[A B]|[A B]]; cbn [app] in *; auto.
Qed.

(** ** Adjacency *)
Definition twin (fs : list index_face) (h : nat * nat) : option face_edge := mfind edge_eqb (reverse (dir fs h)) (entries 0 fs).
Lemma mfind_in e (m : list (edge * face_edge)) h : mfind edge_eqb e m = Some h -> In (e, h) m.
Proof. induction m as [|[x v] m IH]; cbn; [discriminate|]. destruct (edge_eqb_spec e x) as [->|N]; intro H; [inversion H; auto|right; auto]. Qed.
Lemma mfind_none e (m : list (edge * face_edge)) : mfind edge_eqb e m = None -> forall h, ~ In (e, h) m.
Proof. induction m as [|[x v] m IH]; cbn; [auto|]. destruct (edge_eqb_spec e x) as [->|N]; [discriminate|]. intros H h [I|I]; [congruence|eapply IH; eauto]. Qed.
Lemma twin_spec fs h : half fs h -> match twin fs h with Some k => glued fs h k | None => forall k, ~ glued fs h k end.
Proof.
  intro H. unfold twin. destruct (mfind edge_eqb (reverse (dir fs h)) (entries 0 fs)) as [k|] eqn:F.
  - apply mfind_in, in_entries in F. rewrite Nat.sub_0_r in F. apply glued_dir. destruct k; cbn in *; tauto.
  - intros k G. apply glued_dir in G. destruct G as (_ & K & D). apply (mfind_none _ _ F k). apply in_entries. rewrite Nat.sub_0_r. destruct k; cbn in *. split; [lia|auto].
Qed.
Lemma twin_some fs h k : well_oriented fs -> glued fs h k -> twin fs h = Some k.
Proof.
  intros W G. pose proof G as G'. apply glued_dir in G'. destruct G' as (H & K & D). pose proof (twin_spec fs h H) as T. destruct (twin fs h) as [k'|]; [|exfalso; eapply T; eauto].
  apply glued_dir in T. destruct T as (_ & K' & D'). f_equal. apply (W k' k (fst (reverse (dir fs h))) (snd (reverse (dir fs h)))); apply side_of_half; split; auto; rewrite ?D, ?D'; apply surjective_pairing.
Qed.
Lemma twin_invol fs h k : well_oriented fs -> half fs h -> twin fs h = Some k -> half fs k /\ twin fs k = Some h.
Proof.
  intros W H T. pose proof (twin_spec fs h H) as S0. rewrite T in S0. apply glued_dir in S0. destruct S0 as (_ & K & D). split; auto. apply twin_some; auto. apply glued_dir. split; auto. split; auto. rewrite D. unfold reverse. cbn. apply surjective_pairing.
Qed.

Definition ok_row (fs : list index_face) (f : nat) (es : list (option face_edge)) : Prop :=
  length es = length (nth f fs []) /\ forall j, j < length es -> nth_error es j = Some (twin fs (f, j)).
Record adj_ok (fs : list index_face) (adj : adjacency) : Prop := {
  a_some : forall f es, mfind Nat.eqb f adj = Some es -> f < length fs /\ ok_row fs f es;
  a_all : forall h, half fs h -> exists es, mfind Nat.eqb (fst h) adj = Some es }.

Definition seen (P : list (edge * face_edge)) (h : nat * nat) : Prop := exists e, In (e, h) P.
Definition row_upto (fs : list index_face) (P : list (edge * face_edge)) (f : nat) (es : list (option face_edge)) : Prop :=
  length es = length (nth f fs []) /\ forall j, j < length es -> (seen P (f, j) -> nth_error es j = Some (twin fs (f, j))) /\ (~ seen P (f, j) -> nth_error es j = Some None).
Lemma set_at_length {A} (l : list A) i x : length (set_at l i x) = length l.
Proof. revert i. induction l; intros [|i]; cbn; auto. Qed.
Lemma set_at_same {A} (l : list A) i x : i < length l -> nth_error (set_at l i x) i = Some x.
Proof. revert i. induction l; intros [|i] L; cbn in *; auto; try lia. apply IHl. lia. Qed.
Lemma set_at_other {A} (l : list A) i j x : i <> j -> nth_error (set_at l i x) j = nth_error l j.
Proof. revert i j. induction l; intros [|i] [|j] N; cbn; auto; try congruence. Qed.
Lemma mfind_mset_eq {V} k (v : V) m : mfind Nat.eqb k (mset Nat.eqb k v m) = Some v.
Proof. induction m as [|[x w] m IH]; cbn; [rewrite Nat.eqb_refl; auto|]. destruct (Nat.eqb_spec k x) as [->|N]; cbn; [rewrite Nat.eqb_refl; auto|]. destruct (Nat.eqb_spec k x); [congruence|auto]. Qed.
Lemma mfind_mset_neq {V} k k' (v : V) m : k' <> k -> mfind Nat.eqb k' (mset Nat.eqb k v m) = mfind Nat.eqb k' m.
Proof.
  intro D. induction m as [|[x w] m IH]; cbn; [destruct (Nat.eqb_spec k' k); [congruence|auto]|]. destruct (Nat.eqb_spec k x) as [->|N]; cbn.
  - destruct (Nat.eqb_spec k' x); [congruence|auto].
  - destruct (Nat.eqb_spec k' x); auto.
Qed.
Lemma nth_repeat_none {A} n j : j < n -> nth_error (repeat (@None A) n) j = Some None.
Proof. revert j. induction n; intros [|j] L; cbn; auto; try lia. apply IHn. lia. Qed.

Record upto (fs : list index_face) (P : list (edge * face_edge)) (adj : adjacency) : Prop := {
  u_some : forall f es, mfind Nat.eqb f adj = Some es -> f < length fs /\ row_upto fs P f es;
  u_all : forall h, seen P h -> exists es, mfind Nat.eqb (fst h) adj = Some es }.
Lemma adjacency_step_ok fs P e h adj : (forall x, In x P -> In x (entries 0 fs)) -> In (e, h) (entries 0 fs) -> upto fs P adj -> (~ seen P h) ->
  upto fs (P ++ [(e, h)]) (adjacency_step fs (entries 0 fs) (e, h) adj).
Proof.
  intros HP I U NS. destruct h as [f j]. pose proof I as I'. apply in_entries in I'. cbn [fst snd] in I'. rewrite Nat.sub_0_r in I'. destruct I' as (_ & H & D).
  assert (Seen : forall k, seen (P ++ [(e, (f, j))]) k <-> seen P k \/ k = (f, j)).
  { intro k. unfold seen. split; [intros [x Hx]; apply in_app_iff in Hx; destruct Hx as [Hx|[Hx|[]]]; [left; eauto|inversion Hx; auto]|intros [[x Hx]| ->]; [exists x; apply in_app_iff; auto|exists e; apply in_app_iff; cbn; auto]]. }
  assert (Tw : mfind edge_eqb (reverse e) (entries 0 fs) = twin fs (f, j)) by (unfold twin; rewrite D; auto).
  unfold adjacency_step. rewrite Tw. clear Tw.
  set (adj1 := if mhas Nat.eqb f adj then adj else mset Nat.eqb f (repeat None (length (nth f fs []))) adj).
  assert (R : exists es, mfind Nat.eqb f adj1 = Some es /\ row_upto fs P f es).
  { unfold adj1, mhas. destruct (mfind Nat.eqb f adj) as [es|] eqn:F; [exists es; split; auto; apply (u_some fs P adj U); auto|].
    exists (repeat None (length (nth f fs []))). split; [apply mfind_mset_eq|]. split; [apply repeat_length|]. rewrite repeat_length. intros i Li. split; [|intros _; apply nth_repeat_none; auto].
    intro Sn. exfalso. destruct (u_all fs P adj U (f, i) Sn) as [es F']. cbn in F'. congruence. }
  assert (O : forall f', f' <> f -> mfind Nat.eqb f' adj1 = mfind Nat.eqb f' adj).
  { intros f' N. unfold adj1. destruct (mhas Nat.eqb f adj); auto. apply mfind_mset_neq. auto. }
  destruct R as (es & Fe & Re). rewrite Fe. match goal with |- upto _ _ ?r => set (res := r) end.
  assert (K : exists es', mfind Nat.eqb f res = Some es' /\ row_upto fs (P ++ [(e, (f, j))]) f es').
  { destruct Re as [Le Re]. destruct H as [Hf Hj]. cbn in Hf, Hj. unfold res. destruct (twin fs (f, j)) as [fe|] eqn:Tw.
    - exists (set_at es j (Some fe)). split; [apply mfind_mset_eq|]. split; [rewrite set_at_length; auto|]. rewrite set_at_length. intros i Li. destruct (Nat.eq_dec j i) as [<-|N].
      + split; [intros _; rewrite set_at_same; auto; congruence|]. intro X. exfalso. apply X. apply Seen. auto.
      + rewrite set_at_other by auto. destruct (Re i Li) as [A B]. split; intro X; [apply A|apply B; intro Y; apply X; apply Seen; auto]. apply Seen in X. destruct X as [X|X]; auto. inversion X; congruence.
    - exists es. split; auto. split; auto. intros i Li. destruct (Re i Li) as [A B]. split; intro X; [|apply B; intro Y; apply X; apply Seen; auto]. apply Seen in X. destruct X as [X|X]; [auto|]. inversion X; subst. rewrite Tw. apply B. auto. }
  assert (O' : forall f', f' <> f -> mfind Nat.eqb f' res = mfind Nat.eqb f' adj).
  { intros f' N. unfold res. destruct (twin fs (f, j)); [rewrite mfind_mset_neq by auto|]; apply O; auto. }
  destruct K as (es' & Fe' & Re'). split.
  - intros f' r Fr. destruct (Nat.eq_dec f' f) as [->|N].
    + rewrite Fe' in Fr. inversion Fr; subst. split; [apply H|auto].
    + rewrite O' in Fr by auto. destruct (u_some fs P adj U f' r Fr) as [A [B C]]. split; auto. split; auto. intros i Li. destruct (C i Li) as [C1 C2].
      split; intro X; [apply C1|apply C2; intro Y; apply X; apply Seen; auto]. apply Seen in X. destruct X as [X|X]; auto. inversion X; congruence.
  - intros [f' i] Sn. cbn. destruct (Nat.eq_dec f' f) as [->|N]; [eauto|]. rewrite O' by auto. apply Seen in Sn. destruct Sn as [Sn|Sn]; [|inversion Sn; congruence]. apply (u_all fs P adj U (f', i) Sn).
Qed.
Lemma adjacency_fold fs rest P adj : NoDup (P ++ rest) -> (forall x, In x (P ++ rest) -> In x (entries 0 fs)) -> upto fs P adj ->
  upto fs (P ++ rest) (fold_left (fun a x => adjacency_step fs (entries 0 fs) x a) rest adj).
Proof.
  revert P adj. induction rest as [|[e h] rest IH]; intros P adj N I U; cbn [fold_left]; [rewrite app_nil_r; auto|].
  replace (P ++ (e, h) :: rest) with ((P ++ [(e, h)]) ++ rest) in * by (rewrite <- app_assoc; auto). apply IH; auto.
  apply adjacency_step_ok; auto.
  - intros x J. apply I. rewrite <- app_assoc. apply in_app_iff. auto.
  - apply I. apply in_app_iff. left. apply in_app_iff. right. left. auto.
  - intros [e' J]. assert (e' = e).
    { assert (In (e', h) (entries 0 fs)) by (apply I; rewrite <- app_assoc; apply in_app_iff; auto). assert (In (e, h) (entries 0 fs)) by (apply I; apply in_app_iff; left; apply in_app_iff; right; left; auto).
      apply in_entries in H, H0. destruct H as (_ & _ & <-), H0 as (_ & _ & <-). auto. }
    subst. rewrite <- app_assoc in N. cbn in N. apply NoDup_remove_2 in N. apply N. apply in_app_iff. auto.
Qed.
Lemma adjacency_spec order fs : (forall l, Permutation l (order l)) ->
  (well_oriented fs /\ exists adj, ComputeFaceAdjacencyMap order fs = Ok adj /\ adj_ok fs adj) \/ (~ well_oriented fs /\ ComputeFaceAdjacencyMap order fs = Throw).
Proof.
  intro Po. unfold ComputeFaceAdjacencyMap. destruct (inverse_map_spec fs) as [[W ->]|[W ->]]; cbn [omap]; [left|right; auto]. split; auto. eexists. split; [reflexivity|].
  assert (U : upto fs ([] ++ order (entries 0 fs)) (fold_left (fun adj entry => adjacency_step fs (entries 0 fs) entry adj) (order (entries 0 fs)) [])).
  { apply adjacency_fold; cbn [app].
    - eapply Permutation_NoDup; [apply Po|apply entries_NoDup].
    - intros x I. eapply Permutation_in; [apply Permutation_sym, Po|auto].
    - split; [discriminate|intros h [e []]]. }
  cbn [app] in U. assert (A : forall h, half fs h -> seen (order (entries 0 fs)) h).
  { intros h H. exists (dir fs h). eapply Permutation_in; [apply Po|]. apply in_entries. rewrite Nat.sub_0_r. destruct h; cbn in *. split; [lia|auto]. }
  split.
  - intros f es F. destruct (u_some _ _ _ U f es F) as [L [Le R]]. split; auto. split; auto. intros j Lj. apply R; auto. apply A. split; cbn; auto. lia.
  - intros h H. apply (u_all _ _ _ U). auto.
Qed.
