(** Proofs for C37, C38, C39. *)
From Coq Require Import List Arith Bool QArith Lia Lqa.
From Verif Require Confluent_Proofs RuleStates_Proofs.
From Verif Require Import Base Regions_Model Regions_Proofs Graph_Spec Graph_Proofs LaneSeqs_Model LaneSeqs_Spec.
Import ListNotations.
Local Open Scope nat_scope.

Section Network.
Variable ongoing : nat -> bool -> list (nat * bool).
Variable len : nat -> Q.

Notation meets := (meets ongoing).
Notation leads := (leads ongoing).
Notation total := (total len).

Lemma lmem_true x l : lmem x l = true <-> In x l.
Proof.
  unfold lmem. rewrite existsb_exists. split.
  - intros (y & H & E). apply Nat.eqb_eq in E. subst. auto.
  - intro H. exists x. split; auto. apply Nat.eqb_refl.
Qed.
Lemma lmem_false x l : lmem x l = false <-> ~ In x l.
Proof. rewrite <- lmem_true. destruct (lmem x l); split; congruence. Qed.

Lemma to_check a b : In b (lanes_to_check ongoing a) <-> leads a b.
Proof.
  unfold lanes_to_check, LaneSeqs_Spec.leads, LaneSeqs_Spec.meets. rewrite in_app_iff, !in_map_iff. split.
  - intros [((c & e) & E & H)|((c & e) & E & H)]; cbn in E; subst; eauto.
  - intros ([|] & e & H); [right|left]; exists (b, e); auto.
Qed.

Hypothesis pos : forall l, (0 <= len l)%Q.
Lemma total_pos l : (0 <= total l)%Q.
Proof. induction l as [|x l IH]; cbn [LaneSeqs_Spec.total]; [lra|]. pose proof (pos x). lra. Qed.

Definition sroute (start goal : nat) (visited ls : list nat) (maxl cur : Q) (p : list nat) : Prop :=
  exists n q, p = start :: n :: q /\ In n ls /\ consecutive leads (n :: q) /\ NoDup (n :: q) /\
    (forall x, In x (n :: q) -> ~ In x visited) /\ last (n :: q) start = goal /\ (cur + total (removelast (n :: q)) <= maxl)%Q.

Lemma last_two {A} (a b : A) l d : last (a :: b :: l) d = last (b :: l) d.
Proof. reflexivity. Qed.
Lemma last_any {A} (a : A) l d d' : last (a :: l) d = last (a :: l) d'.
Proof. revert a. induction l as [|b l IH]; intro a; [reflexivity|]. rewrite !last_two. apply IH. Qed.

Lemma NoDup_map_consn (e : nat) (l : list (list nat)) : NoDup l -> NoDup (map (cons e) l).
Proof.
  induction 1 as [|p l Hp N IH]; cbn; constructor; auto. intro H. apply in_map_iff in H. destruct H as (q & E & Hq).
  inversion E; subst. auto.
Qed.

Lemma helper_spec lanes goal maxl : (forall a b, In a lanes -> leads a b -> In b lanes) ->
  forall fuel start visited cur, In start lanes -> In start visited -> NoDup visited -> incl visited lanes ->
  length lanes < fuel + length visited -> (maxl < cur)%Q \/ (cur <= maxl)%Q ->
  exists l, seq_helper ongoing len fuel start goal visited maxl cur = Ok l /\
    (forall p, In p l <-> sroute start goal visited (lanes_to_check ongoing start) maxl cur p) /\
    ((forall a, NoDup (lanes_to_check ongoing a)) -> NoDup l).
Proof.
  intro Cl. induction fuel as [|f IH]; intros start visited cur Hs Hv Nv Iv L _.
  { exfalso. pose proof (NoDup_incl_length Nv Iv). lia. }
  cbn [seq_helper].
  destruct (Qltb_spec maxl cur) as [Over|Under].
  { exists []. split; auto. split; [|intros; constructor]. intro p. split; [intros []|].
    intros (n & q & _ & _ & _ & _ & _ & _ & T). pose proof (total_pos (removelast (n :: q))). lra. }
  match goal with |- context [?F (lanes_to_check ongoing start)] => set (each := F) end.
  assert (G : forall ls, incl ls (lanes_to_check ongoing start) ->
    exists l, each ls = Ok l /\ (forall p, In p l <-> sroute start goal visited ls maxl cur p) /\
      ((forall a, NoDup (lanes_to_check ongoing a)) -> NoDup ls -> NoDup l)).
  { induction ls as [|n ls IHl]; intro Il.
    - exists []. split; [reflexivity|]. split; [|intros; constructor]. intro p. split; [intros []|]. intros (n & q & _ & [] & _).
    - destruct IHl as (l & El & Hl & Nl); [intros z Hz; apply Il; right; auto|].
      assert (Ln : leads start n) by (apply to_check; apply Il; left; auto).
      cbn [each]. fold each.
      assert (Here : exists h, (if lmem n visited then Ok []
                         else if Nat.eqb n goal then Ok [[start; goal]]
                         else omap (map (cons start)) (seq_helper ongoing len f n goal (visited ++ [n]) maxl (cur + len n)%Q)) = Ok h /\
                (forall p, In p h <-> sroute start goal visited [n] maxl cur p) /\
                ((forall a, NoDup (lanes_to_check ongoing a)) -> NoDup h)).
      { destruct (lmem n visited) eqn:M.
        - apply lmem_true in M. exists []. split; auto. split; [|intros; constructor]. intro p. split; [intros []|].
          intros (n' & q & -> & [<-|[]] & C & N & D & _). exact (D n (or_introl eq_refl) M).
        - apply lmem_false in M. destruct (Nat.eqb_spec n goal) as [Eg|Ng].
          + subst n. exists [[start; goal]]. split; auto. split; [|intros; repeat constructor; intros []]. intro p. split.
            * intros [<-|[]]. exists goal, []. split; auto. split; [left; auto|]. split; [constructor|].
              split; [repeat constructor; intros []|]. split; [intros x [<-|[]]; auto|]. split; [reflexivity|]. cbn [removelast LaneSeqs_Spec.total]. lra.
            * intros (n' & q & -> & [<-|[]] & C & N & D & La & T). destruct q as [|z q]; [left; auto|].
              exfalso. inversion N as [|? ? N1 N2]; subst. apply N1. rewrite <- La at 1. rewrite last_two. apply last_in. discriminate.
          + destruct (IH n (visited ++ [n]) (cur + len n)%Q) as (h & Eh & Hh & Nh).
            * apply (Cl start); auto.
            * apply in_or_app; right; left; auto.
            * apply NoDup_rev in Nv. rewrite <- (rev_involutive (visited ++ [n])). apply NoDup_rev. rewrite rev_app_distr. cbn.
              constructor; auto. rewrite <- in_rev. auto.
            * intros z Hz. apply in_app_or in Hz. destruct Hz as [Hz|[<-|[]]]; auto. apply (Cl start); auto.
            * rewrite app_length. cbn. lia.
            * destruct (Qltb_spec maxl (cur + len n)%Q); auto.
            * rewrite Eh. cbn [omap obind]. exists (map (cons start) h). split; [reflexivity|]. split; [|intro X; apply NoDup_map_consn; auto].
              intro p. rewrite in_map_iff. split.
              -- intros (q & <- & Hq). apply Hh in Hq. destruct Hq as (m & r & -> & Im & C & N & D & La & T).
                 exists n, (m :: r). split; auto. split; [left; auto|]. split; [constructor; auto; apply to_check; auto|].
                 split; [constructor; auto; intro X; apply (D n X); apply in_or_app; right; left; auto|].
                 split; [|split].
                 ++ intros x [<-|Hx]; auto. intro X. apply (D x Hx). apply in_or_app; auto.
                 ++ rewrite last_two. rewrite <- La. apply last_any.
                 ++ change (removelast (n :: m :: r)) with (n :: removelast (m :: r)). cbn [LaneSeqs_Spec.total]. lra.
              -- intros (n' & q & -> & [<-|[]] & C & N & D & La & T). destruct q as [|m r]; [cbn in La; congruence|].
                 exists (n :: m :: r). split; auto. apply Hh. inversion C as [| |? ? ? C1 C2]; subst. inversion N as [|? ? N1 N2]; subst.
                 exists m, r. split; auto. split; [apply to_check; auto|]. split; auto. split; auto. split; [|split].
                 ++ intros x Hx X. apply in_app_or in X. destruct X as [X|[<-|[]]]; [|auto]. apply (D x); auto. right; auto.
                 ++ rewrite last_two. apply last_any.
                 ++ change (removelast (n :: m :: r)) with (n :: removelast (m :: r)) in T. cbn [LaneSeqs_Spec.total] in T. lra. }
      destruct Here as (h & Eh & Hh & Nh). rewrite Eh. cbn [obind]. rewrite El. cbn [omap obind].
      exists (h ++ l). split; [reflexivity|]. split.
      + intro p. rewrite in_app_iff, Hh, Hl. unfold sroute. split.
        * intros [(m & q & A & [B|[]] & C)|(m & q & A & B & C)]; exists m, q; split; auto; split; auto; [left|right]; auto.
        * intros (m & q & A & [B|B] & C); [left|right]; exists m, q; split; auto; split; auto. left; auto.
      + intros X Y. inversion Y as [|? ? Y1 Y2]; subst. apply Confluent_Proofs.NoDup_app_intro; auto.
        intros p H1 H2. apply Hh in H1. apply Hl in H2. destruct H1 as (m & q & -> & [<-|[]] & _).
        destruct H2 as (m' & q' & E & I & _). inversion E; subst. auto. }
  destruct (G (lanes_to_check ongoing start) (incl_refl _)) as (l & El & Hl & Nl). exists l. split; auto.
Qed.

Lemma sequences_ok lanes start goal maxl : (forall a b, In a lanes -> leads a b -> In b lanes) -> In start lanes -> start <> goal ->
  exists l, FindLaneSequences ongoing len (length lanes) start goal maxl = Ok l /\
    (forall p, In p l <-> lane_path ongoing start goal p /\ (total (interior p) <= maxl)%Q) /\
    ((forall a, NoDup (lanes_to_check ongoing a)) -> NoDup l).
Proof.
  intros Cl Hs Ne. unfold FindLaneSequences. destruct (Nat.eqb_spec start goal) as [E|_]; [congruence|].
  destruct (helper_spec lanes goal maxl Cl (S (length lanes)) start [start] 0%Q) as (l & El & Hl & Nl); auto.
  - left; auto.
  - repeat constructor; intros [].
  - intros x [<-|[]]; auto.
  - cbn. lia.
  - destruct (Qltb_spec maxl 0%Q); auto.
  - exists l. split; auto. split; auto. intro p. rewrite Hl. unfold sroute, lane_path, interior. split.
    + intros (n & q & -> & I & C & N & D & La & T). apply to_check in I. cbn [hd_error tl]. repeat split; auto.
      * constructor; auto. intro X. apply (D _ X). left; auto.
      * constructor; auto.
      * lra.
    + intros ((H & La & N & C) & T). destruct p as [|x p]; [discriminate|]. cbn in H. inversion H; subst x. cbn [tl] in T.
      destruct p as [|n q]; [cbn in La; congruence|]. inversion C as [| |? ? ? C1 C2]; subst. inversion N as [|? ? N1 N2]; subst.
      exists n, q. split; auto. split; [apply to_check; auto|]. repeat split; auto.
      * intros x Hx [<-|[]]. auto.
      * lra.
Qed.

(** ** U-turns *)
Lemma connection_ok a b : leads a b -> exists ea eb, connection_set ongoing a b = Ok (ea, eb) /\ meets a ea b eb.
Proof.
  intros (ea & eb & H). unfold connection_set.
  destruct (find (fun le => Nat.eqb (fst le) b) (ongoing a false)) as [[c e]|] eqn:F.
  - apply find_some in F. destruct F as [I E]. apply Nat.eqb_eq in E. cbn in E. subst c. exists false, e. auto.
  - destruct (find (fun le => Nat.eqb (fst le) b) (ongoing a true)) as [[c e]|] eqn:F'.
    + apply find_some in F'. destruct F' as [I E]. apply Nat.eqb_eq in E. cbn in E. subst c. exists true, e. auto.
    + exfalso. destruct ea; [apply (find_none _ _ F') in H|apply (find_none _ _ F) in H]; cbn in H; rewrite Nat.eqb_refl in H; discriminate.
Qed.

Lemma consecutive_tail {A} (R : A -> A -> Prop) x l : consecutive R (x :: l) -> consecutive R l.
Proof. intro H. inversion H; subst; [constructor|auto]. Qed.

(** The loop compares the far end of the next lane with the near end of the previous one. *)
Lemma uturn_loop_total c a rest : consecutive leads (a :: rest) -> exists u, uturn_loop ongoing c a rest = Ok u.
Proof.
  revert c a. induction rest as [|b rest IH]; intros c a C; [exists false; reflexivity|].
  inversion C as [| |? ? ? C1 C2]; subst. cbn [uturn_loop]. destruct (connection_ok a b C1) as (ea & eb & E & _). rewrite E. cbn [obind].
  destruct (Bool.eqb (snd (ea, eb)) (fst c)); eauto.
Qed.
Lemma has_uturn_total s : s <> [] -> consecutive leads s -> exists u, HasUTurn ongoing s = Ok u.
Proof.
  intros N C. destruct s as [|a [|b [|c rest]]]; cbn [HasUTurn]; try congruence; eauto.
  inversion C as [| |? ? ? C1 C2]; subst. destruct (connection_ok a b C1) as (ea & eb & E & _). rewrite E. cbn [obind].
  apply uturn_loop_total; auto.
Qed.

Lemma uturn_loop_spec : joined_once ongoing -> aligned ongoing -> forall rest p a ep ea u,
  meets p ep a ea -> consecutive leads (a :: rest) -> uturn_loop ongoing (ep, ea) a rest = Ok u ->
  (u = true <-> u_turn ongoing (p :: a :: rest)).
Proof.
  intros [J _] Al. induction rest as [|b rest IH]; intros p a ep ea u M C E.
  - cbn in E. inversion E; subst. split; [discriminate|]. intros (x & a' & b' & c' & v & e1 & e2 & e3 & Eq & _).
    apply (f_equal (@length nat)) in Eq. rewrite app_length in Eq. cbn in Eq. lia.
  - inversion C as [| |? ? ? C1 C2]; subst. cbn [uturn_loop] in E. destruct (connection_ok a b C1) as (ea' & eb & E1 & M1).
    rewrite E1 in E. cbn [obind fst snd] in E. pose proof (Al _ _ _ _ M) as X. pose proof (Al _ _ _ _ M1) as X1. subst ea eb.
    destruct (Bool.eqb (negb ea') ep) eqn:B.
    + apply eqb_prop in B. subst ep. inversion E; subst. split; auto. intros _. exists [], p, a, b, rest, (negb ea'), ea', (negb ea').
      split; [reflexivity|]. rewrite Bool.negb_involutive in M. auto.
    + specialize (IH a b ea' (negb ea') u M1 C2 E). rewrite IH. split.
      * intros (x & a' & b' & c' & v & e1 & e2 & e3 & Eq & H). exists (p :: x), a', b', c', v, e1, e2, e3. split; auto. cbn. congruence.
      * intros (x & a' & b' & c' & v & e1 & e2 & e3 & Eq & H1 & H2). destruct x as [|y x].
        -- cbn in Eq. inversion Eq; subst. exfalso. destruct (J _ _ _ _ _ _ M H1) as [W Y]. destruct (J _ _ _ _ _ _ M1 H2) as [Z _].
           clear - B W Y Z. destruct ep, ea', e1, e2; discriminate.
        -- cbn in Eq. inversion Eq; subst. exists x, a', b', c', v, e1, e2, e3. auto.
Qed.
Lemma has_uturn_spec s u : joined_once ongoing -> aligned ongoing -> consecutive leads s -> HasUTurn ongoing s = Ok u ->
  (u = true <-> u_turn ongoing s).
Proof.
  intros J Al C E.
  assert (Short : length s <= 2 -> u_turn ongoing s -> False).
  { intros L (x & a' & b' & c' & v & e1 & e2 & e3 & -> & _). rewrite app_length in L. cbn in L. lia. }
  destruct s as [|a [|b [|c rest]]]; cbn [HasUTurn] in E.
  - discriminate.
  - inversion E; subst. split; [discriminate|]. intro H. exfalso. apply Short; auto; cbn; lia.
  - inversion E; subst. split; [discriminate|]. intro H. exfalso. apply Short; auto; cbn; lia.
  - inversion C as [| |? ? ? C1 C2]; subst. destruct (connection_ok a b C1) as (ea & eb & E1 & M). rewrite E1 in E. cbn [obind] in E.
    apply (uturn_loop_spec J Al (c :: rest) a b ea eb u M C2 E).
Qed.
Lemma remove_uturns_spec l : (forall s, In s l -> s <> [] /\ consecutive leads s) ->
  exists r, RemoveUTurns ongoing l = Ok r /\ RuleStates_Proofs.sublist r l /\ (forall s, In s r <-> In s l /\ HasUTurn ongoing s = Ok false).
Proof.
  induction l as [|s l IH]; intro H.
  { exists []. split; auto. split; [constructor|]. intro s. cbn. tauto. }
  destruct IH as (r & E & S & I); [intros; apply H; right; auto|]. destruct (H s (or_introl eq_refl)) as [N C].
  destruct (has_uturn_total s N C) as (u & Eu). cbn [RemoveUTurns]. rewrite Eu, E. cbn [obind omap]. destruct u.
  - exists r. split; auto. split; [constructor; auto|]. intro t. rewrite I. cbn. split; [tauto|]. intros [[<-|X] Y]; auto. congruence.
  - exists (s :: r). split; auto. split; [constructor; auto|]. intro t. cbn. rewrite I. split; [intros [<-|[X Y]]; auto|]. tauto.
Qed.

(** ** Routes *)
Lemma in_set_true s l : in_set s l = true <-> exists e, In (l, e) s.
Proof.
  unfold in_set. rewrite existsb_exists. split.
  - intros ((x & e) & H & E). cbn in E. apply Nat.eqb_eq in E. subst. eauto.
  - intros (e & H). exists (l, e). split; auto. apply Nat.eqb_refl.
Qed.
Lemma edge_s_once l e n f : joined_once ongoing -> meets l e n f -> edge_s ongoing len l n = Ok (s_of_end len l e).
Proof.
  intros [J _] M. unfold edge_s, DetermineEdgeS. destruct (in_set (ongoing l true) n) eqn:T.
  - apply in_set_true in T. destruct T as (g & T). destruct (J _ _ _ _ _ _ M T) as [-> _]. reflexivity.
  - destruct e; [exfalso|].
    + assert (X : in_set (ongoing l true) n = true) by (apply in_set_true; eauto). congruence.
    + assert (X : in_set (ongoing l false) n = true) by (apply in_set_true; eauto). rewrite X. reflexivity.
Qed.
Lemma edge_s_some l n : leads l n -> exists e f, meets l e n f /\ edge_s ongoing len l n = Ok (s_of_end len l e).
Proof.
  intros (e & f & M). unfold edge_s, DetermineEdgeS. destruct (in_set (ongoing l true) n) eqn:T.
  - apply in_set_true in T. destruct T as (g & T). exists true, g. auto.
  - destruct e.
    + assert (X : in_set (ongoing l true) n = true) by (apply in_set_true; eauto). congruence.
    + assert (X : in_set (ongoing l false) n = true) by (apply in_set_true; eauto). rewrite X. exists false, f. auto.
Qed.
Lemma s_of_end_pos l e : (0 <= s_of_end len l e)%Q.
Proof. destruct e; cbn; [apply pos|lra]. Qed.
Lemma srange_ok a b : (0 <= a -> 0 <= b -> SRange a b = Ok (mk_srange a b))%Q.
Proof.
  intros A B. unfold SRange. destruct (Qleb_spec 0 a) as [_|X]; [|lra]. destruct (Qleb_spec 0 b) as [_|X]; [|lra]. reflexivity.
Qed.

Notation cont := (contiguous ongoing len).
Definition last_s1 (rs : list lsrange) (s : Q) : Prop := exists rs' r, rs = rs' ++ [r] /\ s1 (s_range r) = s.

Lemma ranges_mid start goal start_s end_s whole : joined_once ongoing -> two_way ongoing -> (0 <= end_s)%Q ->
  forall rest l p ep el, meets p ep l el -> consecutive leads (l :: rest) -> last (l :: rest) l = goal ->
  exists r rs, ranges_of ongoing len (Some p) whole (l :: rest) start_s end_s start goal = Ok (r :: rs) /\
    map lane_id (r :: rs) = l :: rest /\ s0 (s_range r) = s_of_end len l el /\ last_s1 (r :: rs) end_s /\
    consecutive cont (r :: rs) /\
    (~ u_turn ongoing (p :: l :: rest) -> forall x, In x (removelast (r :: rs)) -> traversed len x).
Proof.
  intros J Tw He. induction rest as [|n rest IH]; intros l p ep el M C La.
  - cbn [ranges_of]. cbn in La. subst l. rewrite Nat.eqb_refl. cbn [throw_unless].
    rewrite (edge_s_once goal el p ep J (Tw _ _ _ _ M)). cbn [obind]. rewrite srange_ok by (auto using s_of_end_pos).
    cbn [obind omap]. eexists (mk_lsrange goal (mk_srange (s_of_end len goal el) end_s)), []. split; [reflexivity|]. cbn [map lane_id s_range s0 removelast].
    split; auto. split; auto. split; [exists [], (mk_lsrange goal (mk_srange (s_of_end len goal el) end_s)); auto|]. split; [constructor|]. intros _ x [].
  - inversion C as [| |? ? ? C1 C2]; subst. destruct C1 as (e & f & M1).
    destruct (IH n l e f M1 C2) as (r & rs & E & Lm & S0 & (ini & z & Ez & Z) & Co & U).
    { rewrite last_two. apply last_any. }
    set (x := mk_lsrange l (mk_srange (s_of_end len l el) (s_of_end len l e))).
    exists x, (r :: rs).
    assert (Ex : ranges_of ongoing len (Some p) whole (l :: n :: rest) start_s end_s start (last (l :: n :: rest) l) = Ok (x :: r :: rs)).
    { remember (n :: rest) as nr eqn:Enr. cbn [ranges_of]. rewrite Enr in E |- *.
      rewrite (edge_s_once l el p ep J (Tw _ _ _ _ M)). cbn [obind].
      rewrite (edge_s_once l e n f J M1). cbn [obind]. rewrite srange_ok by (auto using s_of_end_pos). cbn [obind].
      rewrite E. reflexivity. }
    split; [exact Ex|]. split; [cbn [map lane_id x] in *; congruence|]. split; [reflexivity|].
    split; [exists (x :: ini), z; split; auto; cbn; congruence|].
    cbn [map] in Lm. inversion Lm as [[Lr Lrs]].
    split.
    + constructor; auto. exists e, f. cbn [lane_id s_range s1 x]. split; auto. rewrite Lr, S0. auto.
    + intros Nu y Hy. change (removelast (x :: r :: rs)) with (x :: removelast (r :: rs)) in Hy. destruct Hy as [<-|Hy].
      * exists el. cbn [lane_id s_range s0 s1 x]. split; auto. f_equal. destruct (Bool.eqb el e) eqn:B.
        -- apply eqb_prop in B. exfalso. apply Nu. exists [], p, l, n, rest, ep, el, f. rewrite <- B in M1. split; [cbn; congruence|split; assumption].
        -- destruct el, e; auto; discriminate.
      * apply U; auto. intros (u & a & b & c & v & e1 & e2 & e3 & Eq & H). apply Nu. exists (p :: u), a, b, c, v, e1, e2, e3.
        split; auto. cbn. congruence.
Qed.

Lemma route_of_ok start goal start_s end_s p : joined_once ongoing -> two_way ongoing -> (0 <= start_s)%Q -> (0 <= end_s)%Q ->
  lane_path ongoing start goal p ->
  exists r rs, route_of ongoing len p start goal start_s end_s = Ok (r :: rs) /\
    map lane_id (r :: rs) = p /\ s0 (s_range r) = start_s /\ last_s1 (r :: rs) end_s /\
    consecutive cont (r :: rs) /\
    (~ u_turn ongoing p -> forall x, In x (removelast rs) -> traversed len x).
Proof.
  intros J Tw Hs He (H & La & N & C). destruct p as [|a p]; [discriminate|]. cbn in H. inversion H; subst a. destruct p as [|n rest].
  - cbn in La. subst goal. unfold route_of. rewrite Nat.eqb_refl. cbn [throw_unless]. rewrite srange_ok by auto. cbn [obind].
    exists (mk_lsrange start (mk_srange start_s end_s)), []. split; [reflexivity|]. split; auto. split; auto.
    split; [exists [], (mk_lsrange start (mk_srange start_s end_s)); auto|]. split; [constructor|]. intros _ x [].
  - inversion C as [| |? ? ? C1 C2]; subst. destruct C1 as (e & f & M).
    destruct (ranges_mid start (last (start :: n :: rest) start) start_s end_s (start :: n :: rest) J Tw He rest n start e f M C2)
      as (r & rs & E & Lm & S0 & (ini & z & Ez & Z) & Co & U).
    { rewrite last_two. apply last_any. }
    set (x := mk_lsrange start (mk_srange start_s (s_of_end len start e))). exists x, (r :: rs).
    split.
    { unfold route_of.
      assert (Step : forall whole goal ls, ranges_of ongoing len (Some start) whole (n :: ls) start_s end_s start goal = Ok (r :: rs) ->
         ranges_of ongoing len None whole (start :: n :: ls) start_s end_s start goal = Ok (x :: r :: rs)).
      { intros whole goal ls Y. remember (n :: ls) as nr eqn:Enr. cbn [ranges_of]. rewrite Enr in Y |- *.
        rewrite Nat.eqb_refl. cbn [throw_unless]. rewrite (edge_s_once start e n f J M). cbn [obind].
        rewrite srange_ok by (auto using s_of_end_pos). cbn [obind]. rewrite Y. reflexivity. }
      apply Step. exact E. }
    split; [cbn [map lane_id x] in *; congruence|]. split; [reflexivity|]. split; [exists (x :: ini), z; split; auto; cbn; congruence|].
    cbn [map] in Lm. assert (Lr : lane_id r = n) by congruence. split; [|exact U].
    constructor; auto. exists e, f. cbn [lane_id s_range s1 x]. split; auto. rewrite Lr, S0. auto.
Qed.

(** Without [joined_once]: lanes, both end points, and edges at lane ends. *)
Definition at_end (l : nat) (s : Q) : Prop := exists e, s = s_of_end len l e.
Lemma ranges_mid_weak start goal start_s end_s whole : two_way ongoing -> (0 <= end_s)%Q ->
  forall rest l p, leads p l -> consecutive leads (l :: rest) -> last (l :: rest) l = goal ->
  exists r rs, ranges_of ongoing len (Some p) whole (l :: rest) start_s end_s start goal = Ok (r :: rs) /\
    map lane_id (r :: rs) = l :: rest /\ last_s1 (r :: rs) end_s.
Proof.
  intros Tw He. induction rest as [|n rest IH]; intros l p (ep & el & M) C La.
  - cbn [ranges_of]. cbn in La. subst l. rewrite Nat.eqb_refl. cbn [throw_unless].
    destruct (edge_s_some goal p) as (e & f & M' & E); [exists el, ep; apply Tw; auto|]. rewrite E. cbn [obind].
    rewrite srange_ok by (auto using s_of_end_pos). cbn [obind omap].
    exists (mk_lsrange goal (mk_srange (s_of_end len goal e) end_s)), []. split; [reflexivity|]. split; [reflexivity|].
    exists [], (mk_lsrange goal (mk_srange (s_of_end len goal e) end_s)). auto.
  - inversion C as [| |? ? ? C1 C2]; subst.
    destruct (IH n l C1 C2) as (r & rs & E & Lm & (ini & z & Ez & Z)).
    { rewrite last_two. apply last_any. }
    destruct (edge_s_some l p) as (e & f & M' & E1); [exists el, ep; apply Tw; auto|].
    destruct (edge_s_some l n C1) as (e' & f' & M'' & E2).
    set (x := mk_lsrange l (mk_srange (s_of_end len l e) (s_of_end len l e'))). exists x, (r :: rs). split.
    { remember (n :: rest) as nr eqn:Enr. cbn [ranges_of]. rewrite Enr in E |- *.
      rewrite E1. cbn [obind]. rewrite E2. cbn [obind]. rewrite srange_ok by (auto using s_of_end_pos). cbn [obind]. rewrite E. reflexivity. }
    split; [cbn [map lane_id x] in *; congruence|]. exists (x :: ini), z. split; auto. cbn. congruence.
Qed.
Lemma route_of_weak start goal start_s end_s p : two_way ongoing -> (0 <= start_s)%Q -> (0 <= end_s)%Q ->
  lane_path ongoing start goal p ->
  exists r rs, route_of ongoing len p start goal start_s end_s = Ok (r :: rs) /\
    map lane_id (r :: rs) = p /\ s0 (s_range r) = start_s /\ last_s1 (r :: rs) end_s.
Proof.
  intros Tw Hs He (H & La & N & C). destruct p as [|a p]; [discriminate|]. cbn in H. inversion H; subst a. destruct p as [|n rest].
  - cbn in La. subst goal. unfold route_of. rewrite Nat.eqb_refl. cbn [throw_unless]. rewrite srange_ok by auto. cbn [obind].
    exists (mk_lsrange start (mk_srange start_s end_s)), []. split; [reflexivity|]. split; auto. split; auto.
    exists [], (mk_lsrange start (mk_srange start_s end_s)); auto.
  - inversion C as [| |? ? ? C1 C2]; subst.
    destruct (ranges_mid_weak start (last (start :: n :: rest) start) start_s end_s (start :: n :: rest) Tw He rest n start C1 C2)
      as (r & rs & E & Lm & (ini & z & Ez & Z)).
    { rewrite last_two. apply last_any. }
    destruct (edge_s_some start n C1) as (e & f & M & E2).
    set (x := mk_lsrange start (mk_srange start_s (s_of_end len start e))). exists x, (r :: rs). split.
    { unfold route_of.
      assert (Step : forall whole goal ls, ranges_of ongoing len (Some start) whole (n :: ls) start_s end_s start goal = Ok (r :: rs) ->
         ranges_of ongoing len None whole (start :: n :: ls) start_s end_s start goal = Ok (x :: r :: rs)).
      { intros whole goal ls Y. remember (n :: ls) as nr eqn:Enr. cbn [ranges_of]. rewrite Enr in Y |- *.
        rewrite Nat.eqb_refl. cbn [throw_unless]. rewrite E2. cbn [obind].
        rewrite srange_ok by (auto using s_of_end_pos). cbn [obind]. rewrite Y. reflexivity. }
      apply Step. exact E. }
    split; [cbn [map lane_id x] in *; congruence|]. split; [reflexivity|]. exists (x :: ini), z; split; auto; cbn; congruence.
Qed.

Lemma routes_of_ok (P : list nat -> list lsrange -> Prop) start goal start_s end_s l :
  (forall p, In p l -> exists r, route_of ongoing len p start goal start_s end_s = Ok r /\ P p r) ->
  exists rs, routes_of ongoing len l start goal start_s end_s = Ok rs /\ Forall2 P l rs.
Proof.
  induction l as [|p l IH]; intro H; [exists []; split; auto|].
  destruct IH as (rs & E & F); [intros; apply H; right; auto|]. destruct (H p (or_introl eq_refl)) as (r & Er & Pr).
  exists (r :: rs). cbn [routes_of]. rewrite Er, E. cbn. auto.
Qed.
End Network.
