(** Maps with unique keys as association lists (std::map, std::unordered_map), and
    actions that may throw half way.  Iteration order of the list is insertion order;
    theorems about unordered containers do not depend on it. *)
From Coq Require Import List Bool Arith.
From Verif Require Import Base.
Import ListNotations.

(** A mutating C++ call: the state it leaves and whether it returned (true) or threw
    (false).  What was done before a throw stays done. *)
Definition action (S : Type) := S -> S * bool.
Definition act_skip {S} : action S := fun s => (s, true).
Definition act_check {S} (c : S -> bool) : action S := fun s => (s, c s).
Definition act_do {S} (f : S -> S) : action S := fun s => (f s, true).
Definition act_seq {S} (a b : action S) : action S :=
  fun s => let (s', ok) := a s in if ok then b s' else (s', false).
Definition act_when {S} (c : S -> bool) (a : action S) : action S :=
  fun s => if c s then a s else (s, true).
(** for (x : l) f(x) *)
Fixpoint act_each {S A} (f : A -> action S) (l : list A) : action S :=
  match l with [] => act_skip | x :: l' => act_seq (f x) (act_each f l') end.
(** A caller's history: throws are caught and the next call is made. *)
Fixpoint act_run {S A} (f : A -> action S) (l : list A) (s : S) : S :=
  match l with [] => s | x :: l' => act_run f l' (fst (f x s)) end.
Notation "a ;; b" := (act_seq a b) (at level 61, right associativity).

Lemma act_run_app {S A} (f : A -> action S) l1 l2 s : act_run f (l1 ++ l2) s = act_run f l2 (act_run f l1 s).
Proof. revert s. induction l1; simpl; auto. Qed.

Lemma act_run_inv {S A} (f : A -> action S) (Inv : S -> Prop) :
  (forall x s, Inv s -> Inv (fst (f x s))) -> forall l s, Inv s -> Inv (act_run f l s).
Proof. intros H l. induction l; simpl; auto. Qed.

(** Pointwise update of a heap. *)
Definition upd {A} (f : nat -> A) (k : nat) (v : A) : nat -> A := fun x => if Nat.eqb x k then v else f x.
Lemma upd_eq {A} (f : nat -> A) k v : upd f k v k = v.
Proof. unfold upd. rewrite Nat.eqb_refl. reflexivity. Qed.
Lemma upd_neq {A} (f : nat -> A) k v x : x <> k -> upd f k v x = f x.
Proof. unfold upd. destruct (Nat.eqb_spec x k); congruence. Qed.

Section M.
Context {K V : Type}.
Variable eqb : K -> K -> bool.

Definition mp : Type := list (K * V).
Fixpoint mfind (k : K) (m : list (K * V)) : option V :=
  match m with
  | [] => None
  | (k', v) :: m' => if eqb k k' then Some v else mfind k m'
  end.
Definition mhas (k : K) (m : list (K * V)) : bool := match mfind k m with Some _ => true | None => false end.
(** m[k] = v *)
Fixpoint mset (k : K) (v : V) (m : list (K * V)) : list (K * V) :=
  match m with
  | [] => [(k, v)]
  | (k', v') :: m' => if eqb k k' then (k, v) :: m' else (k', v') :: mset k v m'
  end.
(** m.emplace(k, v): None when the key is present. *)
Definition memplace (k : K) (v : V) (m : list (K * V)) : option (list (K * V)) :=
  if mhas k m then None else Some (m ++ [(k, v)]).
(** m.erase(k) *)
Definition merase (k : K) (m : list (K * V)) : list (K * V) := filter (fun p => negb (eqb k (fst p))) m.

Hypothesis eqb_ok : forall a b, eqb a b = true <-> a = b.

Lemma eqb_refl_ k : eqb k k = true.
Proof. apply eqb_ok; reflexivity. Qed.
Lemma eqb_false_ a b : a <> b -> eqb a b = false.
Proof. intro H. destruct (eqb a b) eqn:E; auto. apply eqb_ok in E. congruence. Qed.

Lemma mfind_app k m1 m2 : mfind k (m1 ++ m2) = match mfind k m1 with Some v => Some v | None => mfind k m2 end.
Proof. induction m1 as [|[k' v] m1 IH]; simpl; auto. destruct (eqb k k'); auto. Qed.

Lemma mfind_set_eq k v m : mfind k (mset k v m) = Some v.
Proof.
  induction m as [|[k' v'] m IH]; simpl; [rewrite eqb_refl_; reflexivity|].
  destruct (eqb k k') eqn:E; simpl; [rewrite eqb_refl_|rewrite E]; auto.
Qed.
Lemma mfind_set_neq k k' v m : k <> k' -> mfind k' (mset k v m) = mfind k' m.
Proof.
  intro H. induction m as [|[k2 v2] m IH]; simpl.
  - rewrite eqb_false_; auto.
  - destruct (eqb k k2) eqn:E; simpl.
    + apply eqb_ok in E; subst k2. rewrite eqb_false_; auto.
    + destruct (eqb k' k2); auto.
Qed.
Lemma mfind_in k v m : mfind k m = Some v -> In (k, v) m.
Proof.
  induction m as [|[k' v'] m IH]; simpl; [discriminate|]. destruct (eqb k k') eqn:E.
  - apply eqb_ok in E; subst. intro H; inversion H; auto.
  - auto.
Qed.
Lemma mfind_none k m : mfind k m = None <-> ~ In k (map fst m).
Proof.
  induction m as [|[k' v'] m IH]; simpl; [tauto|]. destruct (eqb k k') eqn:E.
  - apply eqb_ok in E; subst. split; [discriminate|tauto].
  - assert (k <> k') by (intro; subst; rewrite eqb_refl_ in E; discriminate).
    rewrite IH. intuition.
Qed.
Lemma mfind_nodup k v m : NoDup (map fst m) -> In (k, v) m -> mfind k m = Some v.
Proof.
  induction m as [|[k' v'] m IH]; simpl; [tauto|]. intros N [H|H]; inversion N; subst.
  - inversion H; subst. rewrite eqb_refl_; reflexivity.
  - destruct (eqb k k') eqn:E; auto. apply eqb_ok in E; subst. exfalso. apply H2.
    apply in_map_iff. exists (k', v). auto.
Qed.
Lemma mset_keys k v m : map fst (mset k v m) = if mhas k m then map fst m else map fst m ++ [k].
Proof.
  unfold mhas. induction m as [|[k' v'] m IH]; simpl; auto. destruct (eqb k k') eqn:E; simpl.
  - apply eqb_ok in E; subst; reflexivity.
  - rewrite IH. destruct (mfind k m); reflexivity.
Qed.
Lemma mset_nodup k v m : NoDup (map fst m) -> NoDup (map fst (mset k v m)).
Proof.
  intro N. rewrite mset_keys. unfold mhas. destruct (mfind k m) eqn:E; auto.
  apply mfind_none in E. apply NoDup_rev in N. rewrite <- (rev_involutive (map fst m ++ [k])).
  apply NoDup_rev. rewrite rev_app_distr. simpl. constructor; auto. rewrite <- in_rev. exact E.
Qed.
Lemma mhas_true k m : mhas k m = true <-> exists v, mfind k m = Some v.
Proof. unfold mhas. destruct (mfind k m); split; eauto; try discriminate. intros [v H]; discriminate. Qed.
Lemma mhas_false k m : mhas k m = false <-> mfind k m = None.
Proof. unfold mhas. destruct (mfind k m); split; auto; discriminate. Qed.
Lemma mhas_in k m : mhas k m = true <-> In k (map fst m).
Proof.
  destruct (mhas k m) eqn:E.
  - split; auto. intros _. apply mhas_true in E. destruct E as [v E]. apply mfind_in in E.
    apply in_map_iff. exists (k, v); auto.
  - apply mhas_false, mfind_none in E. split; [discriminate|tauto].
Qed.
Lemma memplace_spec k v m : match memplace k v m with
  | None => exists v', mfind k m = Some v'
  | Some m' => mfind k m = None /\ m' = m ++ [(k, v)] /\ forall k', mfind k' m' = if eqb k' k then Some v else mfind k' m
  end.
Proof.
  unfold memplace, mhas. destruct (mfind k m) eqn:E; [eauto|]. split; auto. split; auto. intro k'.
  rewrite mfind_app. simpl. destruct (eqb k' k) eqn:E'.
  - apply eqb_ok in E'; subst. rewrite E. reflexivity.
  - destruct (mfind k' m); reflexivity.
Qed.
Lemma mfind_erase_eq k m : mfind k (merase k m) = None.
Proof.
  unfold merase. induction m as [|[k' v'] m IH]; simpl; auto. destruct (eqb k k') eqn:E; simpl; auto. rewrite E; auto.
Qed.
Lemma mfind_erase_neq k k' m : k <> k' -> mfind k' (merase k m) = mfind k' m.
Proof.
  intro H. unfold merase. induction m as [|[k2 v2] m IH]; simpl; auto. destruct (eqb k k2) eqn:E; simpl.
  - apply eqb_ok in E; subst. rewrite IH. rewrite eqb_false_; auto.
  - destruct (eqb k' k2); auto.
Qed.
Lemma merase_in k m x : In x (merase k m) <-> In x m /\ fst x <> k.
Proof.
  unfold merase. rewrite filter_In, negb_true_iff. split; intros [A B]; split; auto.
  - intro; subst. rewrite eqb_refl_ in B; discriminate.
  - apply eqb_false_. congruence.
Qed.
Lemma merase_nodup k m : NoDup (map fst m) -> NoDup (map fst (merase k m)).
Proof.
  unfold merase. induction m as [|a m IH]; simpl; intro N; [constructor|]. inversion N; subst.
  destruct (eqb k (fst a)); simpl; auto. constructor; auto. intro I. apply H1.
  apply in_map_iff in I. destruct I as (x & E & I). apply filter_In in I. rewrite <- E. apply in_map. tauto.
Qed.
End M.
