(** Proofs for C46 and C47. *)
From Coq Require Import List QArith Bool String Lia Arith.
From Verif Require Import Base Maps Mesh_Model Mesh_Spec.
Import ListNotations.
Local Open Scope nat_scope.

Lemma Equiv_same a b : Equiv a b = true <-> same a b.
Proof. unfold Equiv, same. rewrite !andb_true_iff, !Qeq_bool_iff. tauto. Qed.
Lemma same_refl a : same a a.
Proof. unfold same. repeat split; reflexivity. Qed.
Lemma same_sym a b : same a b -> same b a.
Proof. unfold same. intuition (symmetry; auto). Qed.
Lemma same_trans a b c : same a b -> same b c -> same a c.
Proof. unfold same. intros (A & B & C) (D & E & F). repeat split; etransitivity; eauto. Qed.

Lemma Forall2_weaken {A B} (P R : A -> B -> Prop) l m : (forall a b, P a b -> R a b) -> Forall2 P l m -> Forall2 R l m.
Proof. intros H F. induction F; constructor; auto. Qed.

(** ** UniqueIndexer *)
Record iok (u : indexer) : Prop := {
  i_map : imap u = combine (ivector u) (seq 0 (List.length (ivector u)));
  i_one : forall i j x y, nth_error (ivector u) i = Some x -> nth_error (ivector u) j = Some y -> same x y -> i = j }.
Definition ext {A} (l l' : list A) : Prop := exists e, l' = l ++ e.
Lemma ext_refl {A} (l : list A) : ext l l.
Proof. exists []. rewrite app_nil_r. auto. Qed.
Lemma ext_trans {A} (l m n : list A) : ext l m -> ext m n -> ext l n.
Proof. intros [e ->] [f ->]. exists (e ++ f). rewrite app_assoc. auto. Qed.
Lemma ext_nth {A} (l l' : list A) i x : ext l l' -> nth_error l i = Some x -> nth_error l' i = Some x.
Proof. intros [e ->] N. rewrite nth_error_app1; auto. apply nth_error_Some. congruence. Qed.

Lemma mfind_combine x l k :
  match mfind Equiv x (combine l (seq k (List.length l))) with
  | Some i => k <= i /\ exists y, nth_error l (i - k) = Some y /\ same x y
  | None => forall y, In y l -> ~ same x y
  end.
Proof.
  revert k. induction l as [|a l IH]; intro k; cbn [List.length seq combine mfind]; [cbn; auto|].
  destruct (Equiv x a) eqn:E.
  - split; [lia|]. exists a. rewrite Nat.sub_diag. split; auto. apply Equiv_same. auto.
  - specialize (IH (S k)). destruct (mfind Equiv x (combine l (seq (S k) (List.length l)))) as [i|].
    + destruct IH as (L & y & N & Sm). split; [lia|]. exists y. split; auto. replace (i - k) with (S (i - S k)) by lia. auto.
    + intros y [<-|I] Sm; [apply Equiv_same in Sm; congruence|]. eapply IH; eauto.
Qed.
Lemma combine_snoc {A B} (l : list A) (m : list B) a b : List.length l = List.length m -> combine (l ++ [a]) (m ++ [b]) = combine l m ++ [(a, b)].
Proof. revert m. induction l as [|x l IH]; intros [|y m] L; cbn in *; try discriminate; auto. rewrite IH; auto. Qed.
Lemma push_back_spec x u u' i : iok u -> push_back x u = (u', i) ->
  iok u' /\ ext (ivector u) (ivector u') /\ (exists y, nth_error (ivector u') i = Some y /\ same x y) /\ (forall y, In y (ivector u') -> In y (ivector u) \/ y = x).
Proof.
  intros V P. unfold push_back in P. rewrite (i_map u V) in P. pose proof (mfind_combine x (ivector u) 0) as M.
  destruct (mfind Equiv x (combine (ivector u) (seq 0 (List.length (ivector u))))) as [j|] eqn:E.
  - inversion P; subst. destruct M as (_ & y & N & Sm). rewrite Nat.sub_0_r in N. split; auto. split; [apply ext_refl|]. split; [eauto|auto].
  - inversion P; subst. cbn. split; [|split; [eexists; reflexivity|split]].
    + constructor; cbn.
      * rewrite app_length, Nat.add_comm. cbn [List.length Nat.add]. rewrite seq_S, Nat.add_0_l, combine_snoc; auto. rewrite seq_length. auto.
      * intros a b p q Na Nb Sm. destruct (Nat.lt_ge_cases a (List.length (ivector u))) as [La|La]; destruct (Nat.lt_ge_cases b (List.length (ivector u))) as [Lb|Lb].
        -- rewrite nth_error_app1 in Na, Nb by auto. eapply i_one; eauto.
        -- rewrite nth_error_app1 in Na by auto. rewrite nth_error_app2 in Nb by auto. destruct (b - List.length (ivector u)) as [|k]; [|destruct k; discriminate]. cbn in Nb. inversion Nb; subst.
           exfalso. apply (M p); [eapply nth_error_In; eauto|apply same_sym; auto].
        -- rewrite nth_error_app2 in Na by auto. rewrite nth_error_app1 in Nb by auto. destruct (a - List.length (ivector u)) as [|k]; [|destruct k; discriminate]. cbn in Na. inversion Na; subst.
           exfalso. apply (M q); [eapply nth_error_In; eauto|auto].
        -- rewrite nth_error_app2 in Na, Nb by auto. destruct (a - List.length (ivector u)) as [|k] eqn:Ea; [|destruct k; discriminate]. destruct (b - List.length (ivector u)) as [|k] eqn:Eb; [|destruct k; discriminate]. lia.
    + exists x. split; [|apply same_refl]. rewrite nth_error_app2, Nat.sub_diag; auto.
    + intros y I. apply in_app_iff in I. destruct I as [I|[<-|[]]]; auto.
Qed.

(** ** GeoMesh *)
Record grows (m m' : geo_mesh) : Prop := {
  g_v : ext (ivector (mvertices m)) (ivector (mvertices m'));
  g_n : ext (ivector (mnormals m)) (ivector (mnormals m'));
  g_f : ext (mfaces m) (mfaces m') }.
Lemma grows_refl m : grows m m.
Proof. split; apply ext_refl. Qed.
Lemma grows_trans a b c : grows a b -> grows b c -> grows a c.
Proof. intros [A B C] [D E F]. split; eapply ext_trans; eauto. Qed.
Definition means (m : geo_mesh) (given : list (vec * vec)) (f : index_face) : Prop := exists ps, stands_for m f ps /\ Forall2 same_corner given ps.
Lemma means_grows m m' g f : grows m m' -> means m g f -> means m' g f.
Proof.
  intros G (ps & A & B). exists ps. split; auto. clear B. induction A as [|c p f ps [C D] A IH]; constructor; auto.
  split; eapply ext_nth; eauto; apply G.
Qed.
Lemma means_snoc m g f v n c v' n' : means m g f -> nth_error (ivector (mvertices m)) (fst c) = Some v' -> nth_error (ivector (mnormals m)) (snd c) = Some n' ->
  same v v' -> same n n' -> means m (g ++ [(v, n)]) (f ++ [c]).
Proof.
  intros (ps & A & B) Nv Nn Sv Sn. exists (ps ++ [(v', n')]). split; apply Forall2_app; auto; constructor; auto; split; auto.
Qed.

Record mok (m : geo_mesh) : Prop := { m_v : iok (mvertices m); m_n : iok (mnormals m) }.
Lemma push_corners_spec vs ns m face given m' face' : mok m -> means m given face -> push_corners vs ns m face = Ok (m', face') ->
  mok m' /\ mfaces m' = mfaces m /\ grows m m' /\ means m' (given ++ combine vs ns) face' /\
  (forall y, In y (ivector (mvertices m')) -> In y (ivector (mvertices m)) \/ exists n, In (y, n) (combine vs ns)) /\
  (forall y, In y (ivector (mnormals m')) -> In y (ivector (mnormals m)) \/ exists v, In (v, y) (combine vs ns)).
Proof.
  revert ns m face given. induction vs as [|v vs IH]; intros ns m face given V M P; cbn in P.
  - inversion P; subst. cbn. rewrite app_nil_r. split; auto. split; auto. split; [apply grows_refl|]. split; auto.
  - destruct ns as [|n ns]; [discriminate|]. destruct (push_back v (mvertices m)) as [us vi] eqn:Pv. destruct (push_back n (mnormals m)) as [un ni] eqn:Pn.
    destruct (push_back_spec v _ _ _ (m_v m V) Pv) as (V1 & E1 & (v' & N1 & S1) & I1).
    destruct (push_back_spec n _ _ _ (m_n m V) Pn) as (V2 & E2 & (n' & N2 & S2) & I2).
    assert (G : grows m (mk_mesh us un (mfaces m))) by (split; cbn; auto; apply ext_refl).
    specialize (IH ns (mk_mesh us un (mfaces m)) (face ++ [(vi, ni)]) (given ++ [(v, n)])).
    destruct IH as (A & B & C & D & E & F); auto.
    + split; auto.
    + eapply means_snoc; [eapply means_grows; eauto|cbn; eauto|cbn; eauto|auto|auto].
    + cbn [combine]. split; auto. split; [rewrite B; auto|]. split; [eapply grows_trans; eauto|]. split; [rewrite <- app_assoc in D; exact D|]. split.
      * intros y I. destruct (E y I) as [J|(z & J)]; [|right; exists z; right; auto]. cbn in J. destruct (I1 y J) as [K| ->]; auto. right. exists n. left. auto.
      * intros y I. destruct (F y I) as [J|(z & J)]; [|right; exists z; right; auto]. cbn in J. destruct (I2 y J) as [K| ->]; auto. right. exists v. left. auto.
Qed.
Lemma push_corners_ok vs ns m face : List.length vs <= List.length ns -> exists r, push_corners vs ns m face = Ok r.
Proof.
  revert ns m face. induction vs as [|v vs IH]; intros [|n ns] m face L; cbn in *; eauto; try lia.
  destruct (push_back v (mvertices m)), (push_back n (mnormals m)). apply IH. lia.
Qed.

Definition valid_face (o : geo_mesh) (f : index_face) : Prop := exists ps, stands_for o f ps.
Lemma add_corners_spec o l m face given m' face' : mok m -> means m given face -> add_corners o l m face = Ok (m', face') ->
  exists ps, stands_for o l ps /\ mok m' /\ mfaces m' = mfaces m /\ grows m m' /\ means m' (given ++ ps) face' /\
  (forall y, In y (ivector (mvertices m')) -> In y (ivector (mvertices m)) \/ In y (ivector (mvertices o))) /\
  (forall y, In y (ivector (mnormals m')) -> In y (ivector (mnormals m)) \/ In y (ivector (mnormals o))).
Proof.
  revert m face given. induction l as [|[ov on] l IH]; intros m face given V M P; cbn in P.
  - inversion P; subst. exists []. rewrite app_nil_r. split; [constructor|]. split; auto. split; auto. split; [apply grows_refl|]. split; auto.
  - destruct (nth_error (ivector (mvertices o)) ov) as [v|] eqn:Nv; [|discriminate]. destruct (nth_error (ivector (mnormals o)) on) as [n|] eqn:Nn; [|discriminate].
    destruct (push_back v (mvertices m)) as [us vi] eqn:Pv. destruct (push_back n (mnormals m)) as [un ni] eqn:Pn.
    destruct (push_back_spec v _ _ _ (m_v m V) Pv) as (V1 & E1 & (v' & N1 & S1) & I1).
    destruct (push_back_spec n _ _ _ (m_n m V) Pn) as (V2 & E2 & (n' & N2 & S2) & I2).
    assert (G : grows m (mk_mesh us un (mfaces m))) by (split; cbn; auto; apply ext_refl).
    destruct (IH (mk_mesh us un (mfaces m)) (face ++ [(vi, ni)]) (given ++ [(v, n)])) as (ps & Z & A & B & C & D & E & F); auto.
    + split; auto.
    + eapply means_snoc; [eapply means_grows; eauto|cbn; eauto|cbn; eauto|auto|auto].
    + exists ((v, n) :: ps). split; [constructor; auto; split; auto|]. split; auto. split; [rewrite B; auto|]. split; [eapply grows_trans; eauto|].
      split; [rewrite <- app_assoc in D; exact D|]. apply nth_error_In in Nv, Nn. split.
      * intros y I. destruct (E y I) as [J|J]; auto. cbn in J. destruct (I1 y J) as [K| ->]; auto.
      * intros y I. destruct (F y I) as [J|J]; auto. cbn in J. destruct (I2 y J) as [K| ->]; auto.
Qed.
Lemma add_corners_ok o l m face : valid_face o l -> exists r, add_corners o l m face = Ok r.
Proof.
  intros [ps H]. revert m face. induction H as [|[a b] p l ps [A B] H IH]; intros m face; cbn; eauto. cbn in *. rewrite A, B.
  destruct (push_back (fst p) (mvertices m)), (push_back (snd p) (mnormals m)). apply IH.
Qed.

Lemma means_same_given m g g' f : Forall2 same_corner g g' -> means m g' f -> means m g f.
Proof.
  intros A (ps & B & C). exists ps. split; auto. clear B. revert ps C. induction A as [|x y g g' H A IH]; intros ps C; inversion C; subst; constructor; auto.
  destruct H as [P Q], H2 as [R T]. split; eapply same_trans; eauto.
Qed.
Lemma stands_for_one m f ps qs : stands_for m f ps -> stands_for m f qs -> ps = qs.
Proof.
  intro A. revert qs. induction A as [|c p f ps [H1 H2] A IH]; intros qs B; inversion B as [|c' q f' qs' [K1 K2] B']; subst; auto.
  rewrite (IH _ B'). f_equal. rewrite (surjective_pairing p), (surjective_pairing q). congruence.
Qed.
Lemma add_faces_spec o l m gs m' given : mok m -> Forall2 (means o) gs l -> Forall2 (means m) given (mfaces m) -> add_faces o l m = Ok m' ->
  mok m' /\ grows m m' /\ Forall2 (means m') (given ++ gs) (mfaces m') /\
  (forall y, In y (ivector (mvertices m')) -> In y (ivector (mvertices m)) \/ In y (ivector (mvertices o))) /\
  (forall y, In y (ivector (mnormals m')) -> In y (ivector (mnormals m)) \/ In y (ivector (mnormals o))).
Proof.
  revert m gs given. induction l as [|f l IH]; intros m gs given V Mo M P; cbn in P.
  - inversion P; subst. inversion Mo; subst. rewrite app_nil_r. split; auto. split; [apply grows_refl|]. auto.
  - inversion Mo as [|g f' gs' l' Hg Ho]; subst. destruct (add_corners o f m []) as [[m1 face]| |] eqn:A; try discriminate. cbn in P.
    destruct (add_corners_spec o f m [] [] m1 face V) as (ps & Z & V1 & F1 & G1 & M1 & I1 & I2); auto.
    { exists []. split; constructor. }
    cbn in M1. set (m2 := mk_mesh (mvertices m1) (mnormals m1) (mfaces m1 ++ [face])) in *.
    assert (G2 : grows m1 m2) by (split; cbn; try apply ext_refl; eexists; reflexivity).
    destruct (IH m2 gs' (given ++ [g])) as (A1 & A2 & A3 & A4 & A5); auto.
    + destruct V1; split; auto.
    + cbn. rewrite F1. apply Forall2_app.
      * eapply Forall2_weaken; [|exact M]. intros a b H. eapply means_grows; [exact G2|]. eapply means_grows; [exact G1|]. exact H.
      * constructor; auto. eapply means_grows; [exact G2|]. eapply means_same_given; [|exact M1]. destruct Hg as (qs & Z' & Sq). rewrite (stands_for_one _ _ _ _ Z Z'). auto.
    + rewrite <- app_assoc in A3. split; auto. split; [eapply grows_trans; [|exact A2]; eapply grows_trans; eauto|]. split; auto. split.
      * intros y I. destruct (A4 y I) as [J|J]; auto.
      * intros y I. destruct (A5 y I) as [J|J]; auto.
Qed.
Lemma add_faces_ok o l m : Forall (valid_face o) l -> exists m', add_faces o l m = Ok m'.
Proof.
  intro H. revert m. induction H as [|f l A H IH]; intro m; cbn; eauto. destruct (add_corners_ok o f m [] A) as [r ->]. cbn. apply IH.
Qed.

Lemma push_face_spec f m m' : mok m -> PushFace f m = Ok m' -> mok m' /\ grows m m' /\
  (forall given, Forall2 (means m) given (mfaces m) -> Forall2 (means m') (given ++ [corners f]) (mfaces m')) /\
  (forall y, In y (ivector (mvertices m')) -> In y (ivector (mvertices m)) \/ exists n, In (y, n) (corners f)) /\
  (forall y, In y (ivector (mnormals m')) -> In y (ivector (mnormals m)) \/ exists v, In (v, y) (corners f)).
Proof.
  intros V P. unfold PushFace in P. destruct (push_corners (gvertices f) (gnormals f) m []) as [[m1 face]| |] eqn:A; try discriminate. cbn in P. inversion P; subst. clear P.
  destruct (push_corners_spec (gvertices f) (gnormals f) m [] [] m1 face V) as (V1 & F1 & G1 & M1 & I1 & I2); auto. { exists []. split; constructor. }
  cbn in M1. assert (G2 : grows m1 (mk_mesh (mvertices m1) (mnormals m1) (mfaces m1 ++ [face]))) by (split; cbn; try apply ext_refl; eexists; reflexivity).
  split; [destruct V1; split; auto|]. split; [eapply grows_trans; eauto|]. split; auto.
  intros given M. cbn [mfaces]. rewrite <- F1 in M. apply Forall2_app.
  - eapply Forall2_weaken; [|exact M]. intros a b H. eapply means_grows; [exact G2|]. eapply means_grows; [exact G1|]. exact H.
  - constructor; [|constructor]. eapply means_grows; [exact G2|exact M1].
Qed.
Lemma built_inv m fs : built m fs -> mok m /\ Forall2 (means m) fs (mfaces m) /\
  (forall y, In y (ivector (mvertices m)) -> exists f n, In f fs /\ In (y, n) f) /\
  (forall y, In y (ivector (mnormals m)) -> exists f v, In f fs /\ In (v, y) f).
Proof.
  induction 1 as [|m fs f m' B (V & M & I1 & I2) P|m fs o gs m' B (V & M & I1 & I2) O (Vo & Mo & J1 & J2) P].
  - split; [split; constructor; cbn; auto; intros [|i] j; discriminate|]. split; [constructor|]. cbn. split; intros y [].
  - destruct (push_face_spec f m m' V P) as (V' & G & M' & K1 & K2). split; auto. split; auto. split.
    + intros y I. destruct (K1 y I) as [J|(z & J)].
      * destruct (I1 y J) as (g & z & L & N). exists g, z. split; auto. apply in_app_iff. auto.
      * exists (corners f), z. split; auto. apply in_app_iff. right. left. auto.
    + intros y I. destruct (K2 y I) as [J|(z & J)].
      * destruct (I2 y J) as (g & z & L & N). exists g, z. split; auto. apply in_app_iff. auto.
      * exists (corners f), z. split; auto. apply in_app_iff. right. left. auto.
  - destruct (add_faces_spec o (mfaces o) m gs m' fs V Mo M P) as (V' & G & M' & K1 & K2). split; auto. split; auto. split.
    + intros y I. destruct (K1 y I) as [J|J]; [destruct (I1 y J) as (g & z & L & N)|destruct (J1 y J) as (g & z & L & N)]; exists g, z; split; auto; apply in_app_iff; auto.
    + intros y I. destruct (K2 y I) as [J|J]; [destruct (I2 y J) as (g & z & L & N)|destruct (J2 y J) as (g & z & L & N)]; exists g, z; split; auto; apply in_app_iff; auto.
Qed.
Lemma built_valid m fs : built m fs -> Forall (valid_face m) (mfaces m).
Proof.
  intro B. destruct (built_inv m fs B) as (_ & M & _). clear B. induction M as [|g f fs l (ps & A & _) M IH]; constructor; auto. exists ps. auto.
Qed.

(** ** OBJ *)
Lemma obj_vertices_app {num} (a b : list (line num)) : obj_vertices (a ++ b) = obj_vertices a ++ obj_vertices b.
Proof. apply flat_map_app. Qed.
Lemma obj_normals_app {num} (a b : list (line num)) : obj_normals (a ++ b) = obj_normals a ++ obj_normals b.
Proof. apply flat_map_app. Qed.

Section Emit.
Context {num : Type}.
Variable to_str : Q -> num.
Definition out_v (origin v : vec) : num * num * num := (to_str (vx v - vx origin), to_str (vy v - vy origin), to_str (vz v - vz origin)).
Definition out_n (v : vec) : num * num * num := (to_str (vx v), to_str (vy v), to_str (vz v)).

Lemma flat_lv (f : vec -> num * num * num) l : obj_vertices (map (fun v => LV (fst (fst (f v))) (snd (fst (f v))) (snd (f v))) l) = map f l.
Proof. unfold obj_vertices. induction l; cbn [map flat_map app]; auto. rewrite IHl. f_equal. destruct (f a) as [[? ?] ?]. auto. Qed.
Lemma flat_ln (f : vec -> num * num * num) l : obj_normals (map (fun v => LVN (fst (fst (f v))) (snd (fst (f v))) (snd (f v))) l) = map f l.
Proof. unfold obj_normals. induction l; cbn [map flat_map app]; auto. rewrite IHl. f_equal. destruct (f a) as [[? ?] ?]. auto. Qed.
Lemma flat_none {A} (f : A -> line num) (g : line num -> list (num * num * num)) l : (forall x, g (f x) = []) -> flat_map g (map f l) = [].
Proof. intro H. induction l; cbn; auto. rewrite H, IHl. auto. Qed.

Definition shift (voff noff : nat) (f : index_face) : list (nat * nat) := map (fun c => (fst c + 1 + voff, snd c + 1 + noff)) f.
Lemma obj_faces_skip mat (a b : list (line num)) : (forall x, In x a -> match x with LF _ | LUseMtl _ => False | _ => True end) -> obj_faces mat (a ++ b) = obj_faces mat b.
Proof. induction a as [|x a IH]; intro H; cbn; auto. pose proof (H x (or_introl eq_refl)) as Hx. destruct x; try tauto; apply IH; intros w I; apply H; right; auto. Qed.
Lemma obj_faces_map mat fs (b : list (line num)) : obj_faces mat (map (fun f => LF f) fs ++ b) = map (fun f => (mat, f)) fs ++ obj_faces mat b.
Proof. induction fs; cbn; auto. rewrite IHfs. auto. Qed.

Lemma emit_spec m mat origin voff noff out v' n' : EmitObj to_str m mat origin voff noff = (out, (v', n')) ->
  mfaces m <> [] ->
  obj_vertices out = map (out_v origin) (ivector (mvertices m)) /\ obj_normals out = map out_n (ivector (mnormals m)) /\
  v' = voff + List.length (ivector (mvertices m)) /\ n' = noff + List.length (ivector (mnormals m)) /\
  (forall cur rest, obj_faces cur (out ++ rest) = map (fun f => (if String.eqb mat "" then cur else mat, shift voff noff f)) (mfaces m) ++ obj_faces (if String.eqb mat "" then cur else mat) rest).
Proof.
  intros E N. unfold EmitObj in E. destruct (mfaces m) as [|f0 fs0] eqn:F; [congruence|]. inversion E as [[Eo Ev En]]. clear E.
  assert (NV : forall A (f : A -> list (nat * nat)) l, obj_vertices (map (fun x => @LF num (f x)) l) = []) by (intros; apply flat_none; auto).
  assert (NN : forall A (f : A -> list (nat * nat)) l, obj_normals (map (fun x => @LF num (f x)) l) = []) by (intros; apply flat_none; auto).
  split; [|split; [|split; [auto|split; [auto|]]]].
  - unfold obj_vertices. cbn [app flat_map]. rewrite flat_map_app.
    match goal with |- ?x ++ _ = _ => replace x with (map (out_v origin) (ivector (mvertices m))) by (symmetry; apply (flat_lv (out_v origin))) end.
    match goal with |- _ ++ ?x = _ => replace x with (@nil (num*num*num)) end; [apply app_nil_r|].
    symmetry. cbn [flat_map app]. rewrite flat_map_app.
    match goal with |- ?x ++ _ = _ => replace x with (@nil (num*num*num)) by (symmetry; apply flat_none; auto) end. cbn [app flat_map].
    destruct (String.eqb mat ""); cbn [app flat_map]; apply (NV _ (shift voff noff) (f0 :: fs0)).
  - unfold obj_normals. cbn [app flat_map]. rewrite flat_map_app.
    match goal with |- ?x ++ _ = _ => replace x with (@nil (num*num*num)) by (symmetry; apply flat_none; auto) end. cbn [app flat_map].
    rewrite flat_map_app. match goal with |- ?x ++ _ = _ => replace x with (map out_n (ivector (mnormals m))) by (symmetry; apply (flat_ln out_n)) end.
    match goal with |- _ ++ ?x = _ => replace x with (@nil (num*num*num)) end; [apply app_nil_r|].
    symmetry. cbn [flat_map app]. destruct (String.eqb mat ""); cbn [app flat_map]; apply (NN _ (shift voff noff) (f0 :: fs0)).
  - intros cur rest. cbn [app obj_faces]. rewrite <- app_assoc. rewrite obj_faces_skip.
    2:{ intros x I. apply in_map_iff in I. destruct I as (y & <- & _). auto. }
    cbn [app obj_faces]. rewrite <- app_assoc. rewrite obj_faces_skip.
    2:{ intros x I. apply in_map_iff in I. destruct I as (y & <- & _). auto. }
    cbn [app obj_faces]. rewrite <- app_assoc.
    destruct (String.eqb mat ""); cbn [app obj_faces].
    + pose proof (obj_faces_map cur (map (shift voff noff) (f0 :: fs0)) rest) as M. rewrite !map_map in M. exact M.
    + pose proof (obj_faces_map mat (map (shift voff noff) (f0 :: fs0)) rest) as M. rewrite !map_map in M. exact M.
Qed.
Lemma emit_empty m mat origin voff noff : mfaces m = [] -> EmitObj to_str m mat origin voff noff = ([], (voff, noff)).
Proof. intro E. unfold EmitObj. rewrite E. auto. Qed.
End Emit.
