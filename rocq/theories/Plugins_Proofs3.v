(** Suffixes of listed paths, and the plugin manager. *)
From Coq Require Import String Ascii List Bool Lia Arith ZArith Permutation.
From Verif Require Import Base Plugins_Model Plugins_Spec Plugins_Proofs Plugins_Proofs2.
Import ListNotations.
Local Open Scope string_scope.

Lemma concat_last : forall l, l <> [] -> exists pre, String.concat "/" l = pre ++ last l "" /\ (pre = "" \/ exists q, pre = q ++ "/").
Proof.
  induction l as [| a l IH]; intros E; [contradiction |]. destruct l as [| b l].
  - exists "". split; [reflexivity | auto].
  - destruct IH as (pre & H & S); [discriminate |]. exists (a ++ "/" ++ pre). rewrite concat_cons, H, !sapp_assoc.
    split; [reflexivity |]. right. destruct S as [-> | [q ->]]; [exists a; rewrite sapp_nil | exists (a ++ "/" ++ q); rewrite !sapp_assoc]; reflexivity.
Qed.
Lemma below_last : forall dir names p, names <> [] -> path_below dir names p -> exists pre, p = pre ++ "/" ++ last names "".
Proof.
  intros dir names p E (d & H & ->). assert (exists e, d = e ++ "/") as [e ->] by (inversion H; eauto).
  destruct (concat_last names E) as (pre & -> & [-> | [q ->]]).
  - exists e. cbn [append]. rewrite sapp_assoc. reflexivity.
  - exists (e ++ "/" ++ q). rewrite !sapp_assoc. reflexivity.
Qed.
Lemma dot_in_name : forall x n pre b, ~ contains "/" x -> pre ++ "/" ++ n = b ++ "." ++ x -> exists b', n = b' ++ "." ++ x.
Proof.
  intros x n. induction pre as [| c pre IH]; intros [| d b] N H; cbn [append] in *; try discriminate.
  - injection H as _ H. eauto.
  - exfalso. injection H as _ H. apply N. rewrite <- H, contains_app. right. left. reflexivity.
  - injection H as _ H. exact (IH _ N H).
Qed.
Lemma suffix_wanted : forall dir names p x, names <> [] -> path_below dir names p -> x <> "" -> ~ contains "." x -> ~ contains "/" x ->
  (skipped (Some x) p = false <-> exists b, last names "" = b ++ "." ++ x).
Proof.
  intros dir names p x E B Ne Nd Ns. destruct (below_last _ _ _ E B) as [pre ->]. unfold skipped.
  destruct (String.eqb_spec x ""); [contradiction |]. cbn [negb andb].
  assert (G : GetSuffixFromPath (pre ++ "/" ++ last names "") = x <-> exists b, pre ++ "/" ++ last names "" = b ++ "." ++ x).
  { unfold GetSuffixFromPath. destruct (after_last_dot _) as [y |] eqn:A.
    - apply after_dot_some in A as A'. split.
      + intros ->. apply A'.
      + intros Hb. assert (Hx : after_last_dot (pre ++ "/" ++ last names "") = Some x) by (apply after_dot_some; auto). congruence.
    - split.
      + intros <-. exfalso. apply Ns. rewrite contains_app. right. left. reflexivity.
      + intros Hb. assert (Hx : after_last_dot (pre ++ "/" ++ last names "") = Some x) by (apply after_dot_some; auto). congruence. }
  destruct (String.eqb_spec (GetSuffixFromPath (pre ++ "/" ++ last names "")) x) as [e | e]; cbn [negb]; split; try discriminate; try reflexivity.
  - intros _. apply G in e as [b Hb]. exact (dot_in_name _ _ _ _ Ns Hb).
  - intros [b Hb]. exfalso. apply e, G. rewrite Hb. exists (pre ++ "/" ++ b). rewrite !sapp_assoc. reflexivity.
Qed.
Lemma suffix_no_dot : forall p, ~ contains "." (GetSuffixFromPath p).
Proof.
  intros p. unfold GetSuffixFromPath. destruct (after_last_dot p) eqn:E; [apply after_dot_some in E as [N _]; exact N | apply after_dot_none; exact E].
Qed.
Lemma skipped_dot : forall x p, contains "." x -> skipped (Some x) p = true.
Proof.
  intros x p D. unfold skipped. destruct (String.eqb_spec x ""); [subst; destruct D |].
  destruct (String.eqb_spec (GetSuffixFromPath p) x); [| reflexivity]. exfalso. apply (suffix_no_dot p). rewrite e. exact D.
Qed.

Section Manager.
Context {RN : Type}.
Implicit Types (w : world RN) (m : manager RN).

(** ** The table *)
Lemma find_in : forall l id (p : plugin RN), find_plugin l id = Some p -> In (id, p) l.
Proof.
  induction l as [| [k q] l IH]; intros id p H; cbn [find_plugin] in H; [discriminate |].
  destruct (String.eqb_spec k id) as [-> | N]; [injection H as ->; left; reflexivity | right; auto].
Qed.
Lemma in_find : forall l id (p : plugin RN), NoDup (map fst l) -> In (id, p) l -> find_plugin l id = Some p.
Proof.
  induction l as [| [k q] l IH]; intros id p ND I; [destruct I |]. inversion ND; subst. cbn [find_plugin].
  destruct I as [I | I].
  - injection I as -> ->. rewrite String.eqb_refl. reflexivity.
  - destruct (String.eqb_spec k id) as [-> | _]; [| auto]. exfalso. match goal with H : ~ In _ _ |- _ => apply H end. apply (in_map fst) in I. exact I.
Qed.
Lemma find_none : forall l id, find_plugin (RN := RN) l id = None -> ~ In id (map fst l).
Proof.
  induction l as [| [k q] l IH]; intros id H; cbn [find_plugin map fst] in *; [intros [] |].
  destruct (String.eqb_spec k id) as [-> | N]; [discriminate |]. intros [E | I]; [contradiction | exact (IH _ H I)].
Qed.
Lemma find_assign : forall l id (p : plugin RN) id', find_plugin (assign l id p) id' = if String.eqb id id' then Some p else find_plugin l id'.
Proof.
  induction l as [| [k q] l IH]; intros id p id'; cbn [assign find_plugin]; [reflexivity |].
  destruct (String.eqb_spec k id) as [-> | N]; cbn [find_plugin].
  - destruct (String.eqb id id'); reflexivity.
  - rewrite IH. destruct (String.eqb_spec k id') as [-> | N']; [| reflexivity].
    destruct (String.eqb_spec id id'); [congruence | reflexivity].
Qed.
Lemma assign_keys : forall l id (p : plugin RN), NoDup (map fst l) -> NoDup (map fst (assign l id p)) /\ (forall k, In k (map fst (assign l id p)) <-> k = id \/ In k (map fst l)).
Proof.
  induction l as [| [k q] l IH]; intros id p ND; cbn [assign map fst] in *.
  - split; [repeat constructor; intros [] |]. intros k. cbn [In]. intuition.
  - inversion ND as [| ? ? Nk ND']; subst. destruct (String.eqb_spec k id) as [-> | N]; cbn [map fst].
    + split; [exact ND |]. intros k'. cbn [In]. intuition.
    + destruct (IH id p ND') as [A B]. split.
      * constructor; [| exact A]. rewrite B. intros [E | I]; [contradiction | contradiction].
      * intros k'. cbn [In]. rewrite B. tauto.
Qed.
(** The handles of the table after an assignment: the old one is replaced. *)
Lemma assign_handles : forall l id (p : plugin RN), NoDup (map fst l) ->
  match find_plugin l id with
  | Some old => Permutation (p_handle old :: map (fun kp => p_handle (snd kp)) (assign l id p)) (p_handle p :: map (fun kp => p_handle (snd kp)) l)
  | None => Permutation (map (fun kp => p_handle (snd kp)) (assign l id p)) (p_handle p :: map (fun kp => p_handle (snd kp)) l)
  end.
Proof.
  induction l as [| [k q] l IH]; intros id p ND; cbn [assign find_plugin map snd]; [reflexivity |].
  inversion ND as [| ? ? Nk ND']; subst. destruct (String.eqb_spec k id) as [-> | N]; cbn [map snd].
  - apply perm_swap.
  - specialize (IH id p ND'). destruct (find_plugin l id) as [old |].
    + rewrite perm_swap, IH. apply perm_swap.
    + rewrite IH. apply perm_swap.
Qed.

(** ** The state of a manager *)
Definition handles m : list nat := map (fun kp => p_handle (snd kp)) (plugins m).
Definition orderly m : Prop :=
  NoDup (map fst (plugins m)) /\
  (forall k p, In (k, p) (plugins m) -> p_id p = k /\ p_address p = p_handle p /\ (p_handle p < next m)%nat /\ plugin_library (p_library p) k (p_type p)) /\
  Permutation (opened m) (handles m) /\ NoDup (opened m).

Lemma orderly_new : orderly (Manager [] [] 0).
Proof. repeat split; try constructor; intros; contradiction. Qed.

Lemma remove_perm : forall (l : list nat) h r, NoDup l -> Permutation l (h :: r) -> Permutation (close h l) r /\ NoDup (close h l).
Proof.
  intros l h r ND P. assert (NDr : NoDup (h :: r)) by (eapply Permutation_NoDup; eassumption). inversion NDr as [| ? ? Nh NDr']; subst.
  assert (R : forall x, In x (close h l) <-> In x l /\ x <> h).
  { intros x. unfold close. split.
    - intros H. apply in_remove in H. exact H.
    - intros [H N]. apply in_in_remove; assumption. }
  assert (NDc : NoDup (close h l)).
  { unfold close. clear - ND. induction ND as [| x l N ND IH]; cbn [remove]; [constructor |].
    destruct (Nat.eq_dec h x); [exact IH |]. constructor; [| exact IH]. intros H. apply in_remove in H as [H _]. contradiction. }
  split; [| exact NDc]. apply NoDup_Permutation; [exact NDc | exact NDr' |]. intros x. rewrite R. split.
  - intros [I N]. apply (Permutation_in _ P) in I as [E | I]; [congruence | exact I].
  - intros I. split; [apply (Permutation_in _ (Permutation_sym P)); right; exact I |]. intros ->. contradiction.
Qed.

Lemma make_plugin_spec : forall w m path, path <> "" ->
  match make_plugin w m path with
  | (Ok p, m1) => exists id ty lib, plugin_at w path id ty lib /\ p = Plugin (next m) lib (next m) id ty /\ m1 = Manager (plugins m) (next m :: opened m) (S (next m))
  | (Throw, m1) => (~ exists id ty lib, plugin_at w path id ty lib) /\ plugins m1 = plugins m /\ opened m1 = opened m /\ (next m <= next m1)%nat
  | (UB, m1) => (exists lib, dl w path = Some lib /\ id_symbol lib = Gives None) /\ plugins m1 = plugins m /\ opened m1 = opened m /\ (next m <= next m1)%nat
  end.
Proof.
  intros w m path Ne. unfold make_plugin. destruct (String.eqb_spec path ""); [contradiction |].
  destruct (dl w path) as [lib |] eqn:D.
  2: { split; [| repeat split; lia]. intros (id & ty & lib & _ & D' & _). congruence. }
  destruct (id_symbol lib) as [| [id |]] eqn:I.
  - split; [| repeat split; cbn [next]; lia]. intros (id & ty & lib' & _ & D' & I' & _). congruence.
  - destruct (String.eqb_spec id "") as [-> | Ni].
    + split; [| repeat split; cbn [next]; lia]. intros (id & ty & lib' & _ & D' & I' & Ni & _). congruence.
    + destruct (type_symbol lib) as [| ty] eqn:T.
      * split; [| repeat split; cbn [next]; lia]. intros (id' & ty & lib' & _ & D' & _ & _ & T'). congruence.
      * exists id, ty, lib. repeat split; auto.
  - split; [eauto | repeat split; cbn [next]; lia].
Qed.

Lemma plugin_at_unique : forall w path id ty lib id' ty' lib', plugin_at w path id ty lib -> plugin_at w path id' ty' lib' -> id = id' /\ ty = ty' /\ lib = lib'.
Proof. intros w path id ty lib id' ty' lib' (_ & D & I & _ & T) (_ & D' & I' & _ & T'). assert (lib = lib') by congruence. subst lib'. repeat split; congruence. Qed.

(** What AddPlugin does. *)
Lemma add_spec : forall w m path, orderly m ->
  match AddPlugin w m path with
  | (Ok _, m') => orderly m' /\ exists id ty lib p, plugin_at w path id ty lib /\ p_library p = lib /\ p_id p = id /\ p_type p = ty /\
      ~ In (p_address p) (map (fun kp => p_address (snd kp)) (plugins m)) /\
      forall k, GetPlugin m' k = if String.eqb id k then Some p else GetPlugin m k
  | (Throw, m') => orderly m' /\ plugins m' = plugins m /\ opened m' = opened m /\ ~ exists id ty lib, plugin_at w path id ty lib
  | (UB, m') => orderly m' /\ plugins m' = plugins m /\ opened m' = opened m /\ exists lib, dl w path = Some lib /\ id_symbol lib = Gives None
  end.
Proof.
  intros w m path O. unfold AddPlugin. destruct (String.eqb_spec path "") as [-> | Ne].
  { repeat (split; [assumption || reflexivity |]). intros (id & ty & lib & N & _). contradiction. }
  pose proof (make_plugin_spec w m path Ne) as H. destruct (make_plugin w m path) as [[p | |] m1].
  - destruct H as (id & ty & lib & A & -> & ->). cbn [p_id plugins opened next p_handle].
    destruct O as (ND & OK & P & NDo). cbn zeta.
    assert (Fr : ~ In (next m) (opened m)).
    { intros I. apply (Permutation_in _ P) in I. unfold handles in I. apply in_map_iff in I as ([k q] & E & I). cbn [snd] in E.
      destruct (OK _ _ I) as (_ & _ & L & _). lia. }
    assert (HP : Permutation (next m :: opened m) (next m :: handles m)) by (apply perm_skip, P).
    assert (NDh : NoDup (next m :: opened m)) by (constructor; assumption).
    pose proof (assign_handles (plugins m) id (Plugin (next m) lib (next m) id ty) ND) as AH. cbn [p_handle] in AH.
    destruct (assign_keys (plugins m) id (Plugin (next m) lib (next m) id ty) ND) as [AN AK].
    split.
    + split; [exact AN |]. split.
      { intros k q I. cbn [plugins] in I. apply (in_find _ _ _ AN) in I. rewrite find_assign in I. cbn [next].
        destruct (String.eqb_spec id k) as [<- | N].
        - injection I as <-. cbn [p_id p_handle p_library p_type p_address]. repeat split; try lia; apply A.
        - apply find_in in I. destruct (OK _ _ I) as (E & E2 & L & PL). repeat split; auto; try apply PL. }
      unfold handles in *. cbn [plugins opened]. destruct (find_plugin (plugins m) id) as [old |].
      * apply remove_perm; [exact NDh |]. rewrite HP. symmetry. exact AH.
      * split; [rewrite HP; symmetry; exact AH | exact NDh].
    + exists id, ty, lib, (Plugin (next m) lib (next m) id ty). cbn [p_library p_id p_type p_address].
      repeat (split; [assumption || reflexivity |]). split.
      * intros I. apply in_map_iff in I as ([k q] & E & I). cbn [snd] in E. destruct (OK _ _ I) as (_ & E2 & L & _). lia.
      * intros k. unfold GetPlugin. cbn [plugins]. apply find_assign.
  - destruct H as (N & E1 & E2 & L). split; [| auto]. destruct O as (ND & OK & P & NDo). unfold orderly, handles. rewrite E1, E2.
    split; [exact ND |]. split; [| auto]. intros k p I. destruct (OK _ _ I) as (A & B & C & D). repeat split; auto; try apply D. lia.
  - destruct H as (N & E1 & E2 & L). split; [| auto]. destruct O as (ND & OK & P & NDo). unfold orderly, handles. rewrite E1, E2.
    split; [exact ND |]. split; [| auto]. intros k p I. destruct (OK _ _ I) as (A & B & C & D). repeat split; auto; try apply D. lia.
Qed.

(** The constructor's loop. *)
Lemma add_all_ok : forall w ps m m', orderly m -> add_all w m ps = Ok m' ->
  orderly m' /\ Forall (fun p => exists id ty lib, plugin_at w p id ty lib) ps /\
  forall k, (exists ps1 p ps2 q ty lib, ps = (ps1 ++ p :: ps2)%list /\ plugin_at w p k ty lib /\
       Forall (fun p' => forall ty' lib', ~ plugin_at w p' k ty' lib') ps2 /\ GetPlugin m' k = Some q /\ p_library q = lib /\ p_type q = ty /\ p_id q = k) \/
    (Forall (fun p' => forall ty' lib', ~ plugin_at w p' k ty' lib') ps /\ GetPlugin m' k = GetPlugin m k).
Proof.
  intros w. induction ps as [| p ps IH]; intros m m' O H; cbn [add_all] in H.
  - injection H as <-. split; [exact O |]. split; [constructor |]. intros k. right. auto.
  - pose proof (add_spec w m p O) as A. destruct (AddPlugin w m p) as [[u | |] m1]; try discriminate.
    destruct A as (O1 & id & ty & lib & q & PA & Eq1 & Eq2 & Eq3 & _ & G). destruct (IH _ _ O1 H) as (O' & F & K).
    split; [exact O' |]. split; [constructor; eauto |]. intros k. destruct (K k) as [(ps1 & p' & ps2 & q' & ty' & lib' & E & R) | (F' & E)].
    + left. exists (p :: ps1)%list, p', ps2, q', ty', lib'. rewrite E. split; [reflexivity | exact R].
    + rewrite G in E. destruct (String.eqb_spec id k) as [-> | N].
      * left. exists []%list, p, ps, q, ty, lib. split; [reflexivity |]. split; [exact PA |]. split; [exact F' |]. rewrite E. auto.
      * right. split; [| exact E]. constructor; [| exact F']. intros ty' lib' PA'. apply N. destruct (plugin_at_unique _ _ _ _ _ _ _ _ PA PA') as [-> _]. reflexivity.
Qed.
Lemma add_all_outcome : forall w ps m, orderly m -> 
  match add_all w m ps with
  | Ok _ => Forall (fun p => exists id ty lib, plugin_at w p id ty lib) ps
  | Throw => Exists (fun p => ~ exists id ty lib, plugin_at w p id ty lib) ps
  | UB => Exists (fun p => exists lib, dl w p = Some lib /\ id_symbol lib = Gives None) ps
  end.
Proof.
  intros w. induction ps as [| p ps IH]; intros m O; cbn [add_all]; [constructor |].
  pose proof (add_spec w m p O) as A. destruct (AddPlugin w m p) as [[u | |] m1].
  - destruct A as (O1 & id & ty & lib & q & PA & _). specialize (IH m1 O1). destruct (add_all w m1 ps).
    + constructor; eauto.
    + right. exact IH.
    + right. exact IH.
  - left. apply A.
  - left. apply A.
Qed.

(** ListPlugins *)
Lemma emplace_new : forall l k t, ~ In k (map fst l) -> emplace l k t = (l ++ [(k, t)])%list.
Proof.
  induction l as [| [k' t'] l IH]; intros k t N; cbn [emplace map fst] in *; [reflexivity |].
  destruct (String.eqb_spec k' k) as [-> | _]; [exfalso; apply N; left; reflexivity |]. rewrite IH; [reflexivity |]. intros I. apply N. right. exact I.
Qed.
Lemma list_plugins : forall m, NoDup (map fst (plugins m)) -> ListPlugins m = map (fun kp => (fst kp, p_type (snd kp))) (plugins m).
Proof.
  intros m. unfold ListPlugins.
  assert (G : forall l acc, NoDup (map fst acc ++ map fst l) ->
    fold_left (fun l kp => emplace l (fst kp) (p_type (snd kp))) l acc = (acc ++ map (fun kp : string * plugin RN => (fst kp, p_type (snd kp))) l)%list).
  { induction l as [| [k p] l IH]; intros acc ND; cbn [fold_left map fst snd]; [symmetry; apply app_nil_r |].
    cbn [map fst] in ND. rewrite emplace_new.
    - rewrite IH; [rewrite <- app_assoc; reflexivity |]. rewrite map_app. cbn [map fst]. rewrite <- app_assoc. exact ND.
    - apply NoDup_remove_2 in ND. intros I. apply ND. apply in_or_app. left. exact I. }
  intros ND. apply (G (plugins m) []). exact ND.
Qed.
End Manager.
