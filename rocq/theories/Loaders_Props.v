(** C53, C63, C64: the YAML loaders. *)
From Coq Require Import String List Bool Arith ZArith Lia.
From Verif Require Import Base Maps Loaders_Model Loaders_Spec Loaders_Proofs Loaders_Proofs2 Loaders_Proofs3 Loaders_Proofs4 Loaders_Proofs5.
Import ListNotations.
Local Open Scope string_scope.

(** Numbers of the examples. *)
Definition demo_show (x : nat) : string := match x with 0 => "0" | 1 => "1" | 2 => "2" | _ => "3" end.
Definition demo_double (s : string) : option nat := if s =? "0" then Some 0 else if s =? "1" then Some 1 else if s =? "2" then Some 2 else None.
Definition demo_int (s : string) : option Z := if s =? "-1" then Some (-1)%Z else option_map Z.of_nat (demo_double s).

(** ** C63: traffic light books *)
(** A bulb is made exactly when it is an arrow with an orientation or round without one; without
    states it gets off and on. *)
Theorem bulb_made {D} : forall id (pos : vec3 (D := D)) rot c t arrow st box,
  ((t = Arrow /\ arrow <> None \/ t = Round /\ arrow = None) /\
   exists b, Bulb id pos rot c t arrow st box = Ok b /\ b_id b = id /\ b_pos b = pos /\ b_rot b = rot /\ b_color b = c /\ b_type b = t /\ b_arrow b = arrow /\ b_box b = box /\
   (st <> [] -> b_states b = st) /\ (st = [] -> b_states b = [Off; On])) \/
  ((t = Arrow /\ arrow = None \/ t = Round /\ arrow <> None) /\ Bulb id pos rot c t arrow st box = Throw).
Proof.
  intros id pos rot c t arrow st box. destruct t, arrow as [x|].
  1: right; split; [right; split; congruence|reflexivity].
  3: right; split; [left; split; congruence|reflexivity].
  all: left; split; [(left; split; congruence) || (right; split; congruence)|].
  all: eexists; split; [reflexivity|]; do 7 (split; [reflexivity|]); destruct st; split; congruence || reflexivity.
Qed.
Print Assumptions bulb_made.
(** A document is accepted exactly when it describes a book, and then that book is the result. *)
Theorem traffic_light_book_loaded {D} (to_double : string -> option D) null_text : forall n book,
  LoadTrafficLightBook to_double null_text n = Ok book <-> denotes_book to_double null_text n book.
Proof. exact (load_book_ok to_double (fun _ => None) null_text (fun _ _ => true) (fun _ _ => true)). Qed.
Print Assumptions traffic_light_book_loaded.

(** Whatever the document, the loader returns or throws. *)
Theorem traffic_light_book_never_aborts {D} (to_double : string -> option D) null_text : forall n, LoadTrafficLightBook to_double null_text n <> UB.
Proof. exact (load_book_no_ub to_double null_text). Qed.
Print Assumptions traffic_light_book_never_aborts.

Lemma denotes_good {D} (to_double : string -> option D) null_text : forall n book, denotes_book to_double null_text n book -> good_book book.
Proof.
  intros n book [(l & _ & F) N]. split; [|exact N]. apply Forall_forall. intros t I.
  assert (X : exists e, denotes_light to_double null_text e t) by (clear -F I; induction F; [destruct I|destruct I as [<-|I]; eauto]).
  destruct X as (e & (v & _ & _ & Ne) & _ & (gl & _ & Fg) & Ng). split; [exact Ne|]. split; [|exact Ng]. apply Forall_forall. intros g Ig.
  assert (X : exists e, denotes_group to_double null_text e g) by (clear -Fg Ig; induction Fg; [destruct Ig|destruct Ig as [<-|Ig]; eauto]).
  destruct X as (e' & (v' & _ & _ & Ne') & _ & (bl & _ & Fb) & Nn & Nb). split; [exact Ne'|]. split; [|auto]. apply Forall_forall. intros b Ib.
  assert (X : exists e, denotes_bulb to_double null_text e b) by (clear -Fb Ib; induction Fb; [destruct Ib|destruct Ib as [<-|Ib]; eauto]).
  destruct X as (e'' & (v'' & _ & _ & Ne'') & _ & _ & _ & _ & Ha & Hs). split; [exact Ne''|]. split.
  - destruct (b_type b), (b_arrow b); try tauto; split; congruence.
  - destruct Hs as [[_ ->]|[[_ ->]|(sl & _ & Nl & Fs)]]; try discriminate. intro E. rewrite E in Fs. inversion Fs. congruence.
Qed.
(** Accepted books satisfy what the constructors demand. *)
Theorem traffic_light_book_good {D} (to_double : string -> option D) null_text : forall n book, LoadTrafficLightBook to_double null_text n = Ok book -> good_book book.
Proof. intros n book H. apply traffic_light_book_loaded in H. exact (denotes_good _ _ _ _ H). Qed.
Print Assumptions traffic_light_book_good.

Section Written.
Context {D : Type} (to_double : string -> option D) (null_text : option string) (show : D -> string).
Hypothesis show_ok : forall x, to_double (show x) = Some x.
Lemma num_ok : forall x, number to_double (num show x) x.
Proof. intro x. exists (show x). auto. Qed.
Lemma write3_ok : forall l k v, lookup k l = write3 show v -> vec3_at to_double (Map l) k v.
Proof. intros l k [[x y] z] E. exists (num show x), (num show y), (num show z). split; [apply lookup_entry; [discriminate|exact E]|]. auto using num_ok. Qed.
Lemma write4_ok : forall l k v, lookup k l = write4 show v -> vec4_at to_double (Map l) k v.
Proof. intros l k [[[w x] y] z] E. exists (num show w), (num show x), (num show y), (num show z). split; [apply lookup_entry; [discriminate|exact E]|]. auto using num_ok. Qed.
Lemma write_text : forall l k s, lookup k l = Scalar s -> text_at null_text (Map l) k s.
Proof. intros l k s E. exists (Scalar s). split; [apply lookup_entry; [discriminate|exact E]|]. left. reflexivity. Qed.
Lemma write_ident : forall l k s, lookup k l = Scalar s -> s <> "" -> ident_at null_text (Map l) k s.
Proof. intros l k s E N. exists (Scalar s). split; [apply lookup_entry; [discriminate|exact E]|]. split; auto. left. reflexivity. Qed.
Lemma Forall2_map {A B} : forall (P : B -> A -> Prop) (f : A -> B) l, (forall x, In x l -> P (f x) x) -> Forall2 P (map f l) l.
Proof. intros P f l. induction l as [|x l IH]; intro H; cbn; constructor; [apply H; left; auto|]. apply IH. intros y I. apply H. right. exact I. Qed.
Lemma write_bulb_ok : forall b, good_bulb b -> denotes_bulb to_double null_text (write_bulb show b) b.
Proof.
  intros [id pos rot c t a st box] (Ni & Ha & Ns). cbn in *. unfold denotes_bulb. cbn [b_id b_pos b_rot b_color b_type b_arrow b_states b_box].
  assert (Hs : forall l, lookup "States" l = Seq (map (fun s => Scalar (state_name s)) st) -> 
    (absent (Map l) "States" /\ st = [On; Off]) \/ (entry (Map l) "States" (Seq []) /\ st = [Off; On]) \/ (exists sl, entry (Map l) "States" (Seq sl) /\ sl <> [] /\ Forall2 (fun v s => text null_text v (state_name s)) sl st)).
  { intros l E. right. right. exists (map (fun s => Scalar (state_name s)) st). split; [apply lookup_entry; [discriminate|exact E]|]. split; [destruct st; [congruence|discriminate]|].
    apply Forall2_map. intros s _. left. reflexivity. }
  assert (Ab : forall l k, lookup k l = Undefined -> absent (Map l) k) by (intros l k E; apply get_absent; cbn; rewrite E; reflexivity).
  destruct box as [[lo hi]|]; destruct t, a as [x|]; try (exfalso; destruct Ha as [H1 H2]; first [apply (H1 eq_refl); reflexivity|assert (X : Round = Arrow) by (apply H2; discriminate); discriminate]);
    (split; [apply write_ident; [reflexivity|exact Ni]|]);
    (split; [eexists; split; [apply lookup_entry; [|reflexivity]; discriminate|]; split; [apply write3_ok|apply write4_ok]; reflexivity|]);
    (split; [first [apply Ab; reflexivity|eexists; split; [apply lookup_entry; [|reflexivity]; discriminate|]; split; apply write3_ok; reflexivity]|]);
    (split; [apply write_text; reflexivity|]); (split; [apply write_text; reflexivity|]);
    (split; [first [exact I|eexists; split; [apply lookup_entry; [|reflexivity]; discriminate|apply num_ok]]|apply Hs; reflexivity]).
Qed.
Lemma write_book_ok : forall book, good_book book -> denotes_book to_double null_text (write_book show book) book.
Proof.
  intros book [F N]. rewrite Forall_forall in F. split; [|exact N]. eexists. split; [apply lookup_entry; [|reflexivity]; discriminate|]. apply Forall2_map. intros t It.
  destruct (F t It) as (Nt & Fg & Ng). rewrite Forall_forall in Fg. split; [apply write_ident; [reflexivity|exact Nt]|].
  split; [eexists; split; [apply lookup_entry; [|reflexivity]; discriminate|]; split; [apply write3_ok|apply write4_ok]; reflexivity|]. split; [|exact Ng].
  eexists. split; [apply lookup_entry; [|reflexivity]; discriminate|]. apply Forall2_map. intros g Ig. destruct (Fg g Ig) as (Ni & Fb & Nn & Nb). rewrite Forall_forall in Fb.
  split; [apply write_ident; [reflexivity|exact Ni]|].
  split; [eexists; split; [apply lookup_entry; [|reflexivity]; discriminate|]; split; [apply write3_ok|apply write4_ok]; reflexivity|]. split; [|auto].
  eexists. split; [apply lookup_entry; [|reflexivity]; discriminate|]. apply Forall2_map. intros b Ib. apply write_bulb_ok. auto.
Qed.
End Written.
(** Loading the document written for a book gives the book back. *)
Theorem traffic_light_book_round_trip {D} (to_double : string -> option D) null_text show : forall book,
  (forall x, to_double (show x) = Some x) -> good_book book -> LoadTrafficLightBook to_double null_text (write_book show book) = Ok book.
Proof. intros book Sh G. apply traffic_light_book_loaded. apply write_book_ok; assumption. Qed.
Print Assumptions traffic_light_book_round_trip.

Definition demo_bulb (id : string) (c : bcolor) (st : list bstate) : bulb (D := nat) := mk_bulb id (0, 1, 2) (1, 0, 0, 0) c Round None st None.
Definition demo_arrow : bulb (D := nat) := mk_bulb "arrow" (0, 0, 0) (1, 0, 0, 0) Green Arrow (Some 2) [Off; Blinking] (Some ((0, 0, 0), (1, 1, 1))).
Definition demo_group : bulb_group (D := nat) := mk_bulb_group "g" (0, 0, 1) (1, 0, 0, 0) [demo_bulb "red" Red [Off; On]; demo_arrow].
Definition demo_book : list (traffic_light (D := nat)) := [mk_traffic_light "t" (1, 1, 1) (1, 0, 0, 0) [demo_group]; mk_traffic_light "empty" (0, 0, 0) (1, 0, 0, 0) []].
Example demo_book_good : good_book demo_book.
Proof. repeat constructor; cbn; try discriminate; try (intuition discriminate). Qed.
Example demo_book_loaded : LoadTrafficLightBook demo_double None (write_book demo_show demo_book) = Ok demo_book.
Proof. vm_compute. reflexivity. Qed.
(** Refused: two bulbs with the same id, an arrow without orientation, no bulbs. *)
Example demo_refused :
  LoadTrafficLightBook demo_double None (write_book demo_show [mk_traffic_light "t" (0, 0, 0) (1, 0, 0, 0) [mk_bulb_group "g" (0, 0, 0) (1, 0, 0, 0) [demo_arrow; demo_arrow]]]) = Throw /\
  LoadTrafficLightBook demo_double None (write_book demo_show [mk_traffic_light "t" (0, 0, 0) (1, 0, 0, 0) [mk_bulb_group "g" (0, 0, 0) (1, 0, 0, 0) [mk_bulb "a" (0, 0, 0) (1, 0, 0, 0) Red Arrow None [On] None]]]) = Throw /\
  LoadTrafficLightBook demo_double None (write_book demo_show [mk_traffic_light "t" (0, 0, 0) (1, 0, 0, 0) [mk_bulb_group "g" (0, 0, 0) (1, 0, 0, 0) []]]) = Throw.
Proof. repeat split. Qed.

(** ** C53: phase rings *)
(** Which documents are accepted. *)
Theorem phase_ring_accepted {D R} (to_double : string -> option D) null_text : forall (rulebook : rules (R := R)) book n,
  good_book book -> NoDup (map fst rulebook) ->
  (exists r, BuildPhaseRing to_double null_text rulebook book n = Ok r) <-> ring_ok to_double null_text rulebook book n.
Proof. intros. apply ring_accepted; assumption. Qed.
Print Assumptions phase_ring_accepted.

(** The states of rules of a loaded ring: the phases are those of the document, each has a
    state for exactly the rules the ring lists, and that state is the one written by the last
    phase, up to and including this one, that mentions the rule; the default state if there
    is none. *)
Theorem phase_ring_rule_states {D R} (to_double : string -> option D) null_text : forall (rulebook : rules (R := R)) book n id ps next,
  good_book book -> NoDup (map fst rulebook) -> BuildPhaseRing to_double null_text rulebook book n = Ok (id, ps, next) ->
  ident_at null_text n "ID" id /\
  exists pl, phase_nodes n pl /\ length ps = length pl /\
  forall k p, nth_error ps k = Some p ->
    phase_id null_text (nth k pl Undefined) (lp_id p) /\ NoDup (map fst (lp_rules p)) /\
    (forall rid, In rid (map fst (lp_rules p)) <-> exists vs, listed null_text rulebook n rid vs) /\
    forall rid v, In (rid, v) (lp_rules p) -> exists vs, listed null_text rulebook n rid vs /\
      ((exists j s, last_set null_text pl k rid s j /\ value_called vs s v) \/ (never_set null_text pl k rid /\ default_value vs v)).
Proof.
  intros rulebook book n id ps next Gb Nb H. apply BuildPhaseRing_ok in H; auto. destruct H as (pl & rs & d & Hid & Hp & L & Nr & _ & Hd & Hps & _ & _).
  split; [exact Hid|]. exists pl. split; [exact Hp|]. pose proof (defaults_keys _ _ Hd) as Kd. apply load_phases_ok in Hps; auto. destruct Hps as [F Hk].
  split; [clear -F; induction F; cbn; congruence|]. intros k p Np.
  assert (Fp : phase_facts null_text book rs (nth k pl Undefined) p).
  { clear -F Np. revert k Np. induction F as [|a b la lb H F IH]; intros [|k] Np; cbn in *; try discriminate; [injection Np as <-; exact H|auto]. }
  destruct Fp as (Fi & _ & _ & _ & Fk). split; [exact Fi|]. split; [rewrite Fk; exact Nr|]. split.
  - intro rid. rewrite Fk, in_map_iff. split.
    + intros ([i vs] & <- & I). exists vs. apply L. exact I.
    + intros (vs & I). apply L in I. exists (rid, vs). auto.
  - intros rid v I. assert (Fv : mfind String.eqb rid (lp_rules p) = Some v) by (apply (mfind_nodup _ seqb_ok); auto; rewrite Fk; exact Nr).
    destruct (Hk k p rid v Np Fv) as [(j & s & vs & Ls & J & V)|[Nv E]].
    + exists vs. split; [apply L; exact J|]. left. eauto.
    + destruct (defaults_find rs d Hd rid v E) as (vs & J & Dv). exists vs. split; [apply L; exact J|]. auto.
Qed.
Print Assumptions phase_ring_rule_states.

(** A rule with the three usual values. *)
Definition demo_rule (id : string) : string * list (dvalue (R := unit)) := (id, [("Go", tt); ("Stop", tt)]).
Definition demo_phase (id : string) (l : list (yaml * yaml)) : yaml := Map [(Scalar "ID", Scalar id); (Scalar "RightOfWayRuleStates", Map l)].
Definition demo_ring : yaml :=
  Map [(Scalar "ID", Scalar "ring"); (Scalar "Rules", Seq [Scalar "r1"; Scalar "r2"]);
       (Scalar "Phases", Seq [demo_phase "p0" [(Scalar "r1", Scalar "Go")]; demo_phase "p1" [(Scalar "r2", Scalar "Go")]]);
       (Scalar "PhaseTransitionGraph", Map [(Scalar "p0", Seq [Map [(Scalar "ID", Scalar "p1"); (Scalar "duration_until", Scalar "2")]]); (Scalar "p1", Seq [Map [(Scalar "ID", Scalar "p0")]])])].
Example demo_ring_loaded : BuildPhaseRing demo_double None [demo_rule "r1"; demo_rule "r2"] demo_book demo_ring =
  Ok ("ring", [mk_lphase "p0" [("r1", ("Go", tt)); ("r2", ("Stop", tt))] None; mk_lphase "p1" [("r1", ("Go", tt)); ("r2", ("Go", tt))] None],
      Some [("p0", [("p1", Some 2)]); ("p1", [("p0", None)])]).
Proof. vm_compute. reflexivity. Qed.

(** The claim is false: a phase that does not mention a rule keeps the state of the phase
    before it.  Here the second phase has r1 at Go though it does not mention r1, whose
    default is Stop. *)
Theorem phase_ring_defaults_refuted : exists (rulebook : rules (R := unit)) (n : yaml) id ps next pl k p rid v vs,
  NoDup (map fst rulebook) /\ BuildPhaseRing demo_double None rulebook [] n = Ok (id, ps, next) /\ phase_nodes n pl /\
  nth_error ps k = Some p /\ In (rid, v) (lp_rules p) /\ listed None rulebook n rid vs /\
  phase_omits None (nth k pl Undefined) rid /\ ~ default_value vs v.
Proof.
  exists [demo_rule "r1"; demo_rule "r2"], demo_ring, "ring",
    [mk_lphase "p0" [("r1", ("Go", tt)); ("r2", ("Stop", tt))] None; mk_lphase "p1" [("r1", ("Go", tt)); ("r2", ("Go", tt))] None],
    (Some [("p0", [("p1", Some 2)]); ("p1", [("p0", None)])]),
    [demo_phase "p0" [(Scalar "r1", Scalar "Go")]; demo_phase "p1" [(Scalar "r2", Scalar "Go")]], 1,
    (mk_lphase "p1" [("r1", ("Go", tt)); ("r2", ("Go", tt))] None), "r1", ("Go", tt), [("Go", tt); ("Stop", tt)].
  split; [repeat constructor; cbn; intuition discriminate|]. split; [vm_compute; reflexivity|]. split; [apply lookup_entry; [discriminate|reflexivity]|].
  split; [reflexivity|]. split; [left; reflexivity|]. split.
  { exists [Scalar "r1"; Scalar "r2"], (Scalar "r1"). split; [apply lookup_entry; [discriminate|reflexivity]|]. split; [left; auto|]. split; [left; auto|left; auto]. }
  split.
  - intros l E p I. assert (E' : entry (demo_phase "p1" [(Scalar "r2", Scalar "Go")]) "RightOfWayRuleStates" (Map [(Scalar "r2", Scalar "Go")])) by (apply lookup_entry; [discriminate|reflexivity]).
    pose proof (entry_functional _ _ _ _ E E') as X. injection X as ->. destruct I as [<-|[]]. cbn. intros [X|[X _]]; discriminate.
  - intro Dv. apply default_ok in Dv. discriminate.
Qed.
Print Assumptions phase_ring_defaults_refuted.

(** It holds of a phase that mentions every rule an earlier phase mentions. *)
Theorem phase_ring_defaults_partial {D R} (to_double : string -> option D) null_text : forall (rulebook : rules (R := R)) book n id ps next pl k p rid v,
  good_book book -> NoDup (map fst rulebook) -> BuildPhaseRing to_double null_text rulebook book n = Ok (id, ps, next) -> phase_nodes n pl ->
  nth_error ps k = Some p -> In (rid, v) (lp_rules p) ->
  (forall j s, j < k -> phase_writes null_text (nth j pl Undefined) rid s -> exists s', phase_writes null_text (nth k pl Undefined) rid s') ->
  exists vs, listed null_text rulebook n rid vs /\
    ((exists s, phase_writes null_text (nth k pl Undefined) rid s /\ value_called vs s v) \/ (phase_omits null_text (nth k pl Undefined) rid /\ default_value vs v)).
Proof.
  intros rulebook book n id ps next pl k p rid v Gb Nb H Hp Np I Hm. destruct (phase_ring_rule_states to_double null_text _ _ _ _ _ _ Gb Nb H) as (_ & pl' & Hp' & _ & Hk).
  pose proof (entry_functional _ _ _ _ Hp Hp') as X. injection X as <-. destruct (Hk k p Np) as (_ & _ & _ & Hv). destruct (Hv rid v I) as (vs & L & [(j & s & (Lj & W & O) & V)|[Nv Dv]]); exists vs; split; auto.
  - left. destruct (Nat.eq_dec j k) as [->|Ne]; [eauto|]. exfalso. destruct (Hm j s ltac:(lia) W) as (s' & l & E & l1 & l2 & kn & vn & -> & T & _).
    apply (O k ltac:(lia) ltac:(lia) _ E (kn, vn)); [apply in_or_app; right; left; reflexivity|exact T].
Qed.
Print Assumptions phase_ring_defaults_partial.

(** The states of bulbs: no states without TrafficLightStates; otherwise exactly the bulbs of
    the groups the phase mentions, written or default.  (The states written are not checked
    against the states the bulb has: see below.) *)
Theorem phase_ring_bulb_states {D R} (to_double : string -> option D) null_text : forall (rulebook : rules (R := R)) book n id ps next,
  good_book book -> NoDup (map fst rulebook) -> BuildPhaseRing to_double null_text rulebook book n = Ok (id, ps, next) ->
  exists pl, phase_nodes n pl /\ Forall2 (fun pn p => bulbs_of_phase null_text book pn (lp_bulbs p)) pl ps.
Proof.
  intros rulebook book n id ps next Gb Nb H. apply BuildPhaseRing_ok in H; auto. destruct H as (pl & rs & d & Hid & Hp & L & Nr & _ & Hd & Hps & _ & _).
  exists pl. split; [exact Hp|]. pose proof (defaults_keys _ _ Hd) as Kd. apply load_phases_ok in Hps; auto. destruct Hps as [F _]. clear -F. induction F as [|a b la lb H F IH]; constructor; auto. apply H.
Qed.
Print Assumptions phase_ring_bulb_states.

Definition demo_bulb_ring (s : string) : yaml :=
  Map [(Scalar "ID", Scalar "ring"); (Scalar "Rules", Seq []); (Scalar "Phases", Seq [Map [(Scalar "ID", Scalar "p"); (Scalar "TrafficLightStates", Map [(Scalar "t", Map [(Scalar "g", Map [(Scalar "red", Scalar s)])])])]])].
(** A bulb that cannot blink is made to blink. *)
Theorem phase_ring_invalid_bulb_state_refuted : exists (book : list (traffic_light (D := nat))) n id ps next p m b,
  good_book book /\ BuildPhaseRing demo_double None (R := unit) [] book n = Ok (id, ps, next) /\ In p ps /\ lp_bulbs p = Some m /\
  has_bulb book "t" "g" b /\ mfind key_eqb ("t", "g", b_id b) m = Some Blinking /\ ~ In Blinking (b_states b).
Proof.
  exists demo_book, (demo_bulb_ring "Blinking"), "ring",
    [mk_lphase "p" [] (Some [(("t", "g", "red"), Blinking); (("t", "g", "arrow"), Off)])], None, (mk_lphase "p" [] (Some [(("t", "g", "red"), Blinking); (("t", "g", "arrow"), Off)])),
    [(("t", "g", "red"), Blinking); (("t", "g", "arrow"), Off)], (demo_bulb "red" Red [Off; On]).
  split; [exact demo_book_good|]. split; [vm_compute; reflexivity|]. split; [left; auto|]. split; [reflexivity|]. split; [|split; [reflexivity|cbn; intuition discriminate]].
  unfold has_bulb. do 2 eexists. split; [left; reflexivity|]. split; [reflexivity|]. split; [left; reflexivity|]. split; [reflexivity|]. left. reflexivity.
Qed.
Print Assumptions phase_ring_invalid_bulb_state_refuted.

(** Transitions are those written; they start and end at phases of the ring. *)
Theorem phase_ring_transitions {D R} (to_double : string -> option D) null_text : forall (rulebook : rules (R := R)) book n id ps next,
  good_book book -> NoDup (map fst rulebook) -> BuildPhaseRing to_double null_text rulebook book n = Ok (id, ps, next) ->
  match next with
  | None => absent n "PhaseTransitionGraph"
  | Some g => (exists gn, entry n "PhaseTransitionGraph" gn /\ denotes_graph to_double null_text gn g) /\
      forall from ns, In (from, ns) g -> In from (map lp_id ps) /\ forall x, In x ns -> In (fst x) (map lp_id ps)
  end.
Proof.
  intros rulebook book n id ps next Gb Nb H. apply BuildPhaseRing_ok in H; auto. destruct H as (pl & rs & d & Hid & Hp & L & Nr & _ & Hd & Hps & Hn & M).
  apply BuildNextPhases_ok in Hn; auto. destruct Hn as [Hg Hd']. destruct next as [g|]; [|exact Hd']. split; [exact Hd'|]. intros from ns I.
  destruct Hd' as (gn & E & _ & In1). apply In1 in I. destruct I as (l & nl & -> & (l1 & kn & l2 & -> & T & _) & F).
  destruct Hg as [A|(gn' & E' & _ & Hok)]; [destruct (A _ E)|]. pose proof (entry_functional _ _ _ _ E E') as X. subst gn'.
  destruct (Hok _ eq_refl (kn, Seq nl)) as (i & nl' & [Ti _] & J & Es & Fn); [apply in_or_app; right; left; reflexivity|]. cbn in Ti, Es. injection Es as <-.
  pose proof (text_fun null_text _ _ _ T Ti) as ->. split; [exact J|]. clear -F Fn. induction F as [|e x nl ns H F IH]; intros y I; [destruct I|]. inversion Fn as [|e' nl' (i & Hi & Hin & _) Fn']; subst.
  destruct I as [->|I]; [|apply IH; auto]. destruct H as [(v & Ev & Tv & _) _], Hi as (w & Ew & Tw & _). pose proof (entry_functional _ _ _ _ Ev Ew) as <-. pose proof (text_fun null_text _ _ _ Tv Tw) as ->. exact Hin.
Qed.
Print Assumptions phase_ring_transitions.

(** The check that the graph is a map is made of the ring instead: a ring whose graph is a
    text is accepted, with an empty graph. *)
Theorem phase_ring_graph_refuted : exists n ps, 
  entry n "PhaseTransitionGraph" (Scalar "p -> p") /\ BuildPhaseRing demo_double None (R := unit) [] [] n = Ok ("ring", ps, Some []).
Proof.
  exists (Map [(Scalar "ID", Scalar "ring"); (Scalar "Rules", Seq []); (Scalar "Phases", Seq [Map [(Scalar "ID", Scalar "p")]]); (Scalar "PhaseTransitionGraph", Scalar "p -> p")]), [mk_lphase "p" [] None].
  split; [apply lookup_entry; [discriminate|reflexivity]|reflexivity].
Qed.
Print Assumptions phase_ring_graph_refuted.

(** The loader aborts the process only for a listed rule that has none of the values Stop,
    StopThenGo and Go ... *)
Theorem phase_ring_abort_only {D R} (to_double : string -> option D) null_text : forall (rulebook : rules (R := R)) book n,
  good_book book -> NoDup (map fst rulebook) -> BuildPhaseRing to_double null_text rulebook book n = UB ->
  exists id vs, listed null_text rulebook n id vs /\ forall v, In v vs -> fst v <> "Stop" /\ fst v <> "StopThenGo" /\ fst v <> "Go".
Proof. intros. eapply ring_ub; eauto. Qed.
Print Assumptions phase_ring_abort_only.

(** ... and it does so for a rule of another type, e.g. a direction usage rule. *)
Theorem phase_ring_abort_refuted : exists (rulebook : rules (R := unit)) n,
  NoDup (map fst rulebook) /\ BuildPhaseRing demo_double None rulebook [] n = UB.
Proof. exists [demo_rule "r1"; ("r2", [("WithS", tt); ("AgainstS", tt)])], demo_ring. split; [repeat constructor; cbn; intuition discriminate|vm_compute; reflexivity]. Qed.
Print Assumptions phase_ring_abort_refuted.

(** ** C64: rule registries *)
(** A document (whose value nodes have no repeated keys) is accepted exactly when it describes
    a registry, and then that is the result. *)
Theorem rule_registry_loaded {D} (to_double : string -> option D) to_int null_text Dleb Deqb : 
  (forall x y, Dleb x y = true -> Dleb x x = true /\ Dleb y y = true) -> (forall x y, Dleb x x = true -> (Deqb x y = true <-> x = y)) ->
  forall n r, tidy_registry n -> (LoadRuleRegistry to_double to_int null_text Dleb Deqb n = Ok r <-> denotes_registry to_double to_int null_text Dleb n r).
Proof. intros. apply load_registry_ok; assumption. Qed.
Print Assumptions rule_registry_loaded.

(** Whatever the document, the loader returns or throws. *)
Ltac no_ub := repeat first
  [ discriminate | apply get_no_ub | apply need_no_ub | apply conv_no_ub | apply as_string_no_ub | apply as_id_no_ub | apply as_double_no_ub
  | apply obind_no_ub; [|intros ? _] | apply omap_no_ub | apply throw_unless_no_ub; intros _ | apply each_ok_no_ub; intros ? _
  | match goal with |- (if ?c then _ else _) <> UB => destruct c end ].
Theorem rule_registry_never_aborts {D} (to_double : string -> option D) to_int null_text Dleb Deqb : forall n, LoadRuleRegistry to_double to_int null_text Dleb Deqb n <> UB.
Proof.
  assert (At : forall n, attributes to_int null_text n <> UB) by (intro n; unfold attributes, GetSeverity, keys_of; no_ub; unfold as_int; destruct a0; no_ub).
  assert (Ld : forall n, load_discrete (D := D) to_int null_text n <> UB) by (intro n; unfold load_discrete; no_ub; apply At).
  assert (Lr : forall n, load_range to_double to_int null_text Dleb n <> UB).
  { intro n. unfold load_range. apply obind_no_ub; [apply get_no_ub|]. intros r _. destruct r as [| | |[|x [|y [|z l]]]|]; no_ub; apply At. }
  assert (Ev : forall l t, evaluate l t <> UB).
  { induction l as [|e l IH]; intro t; cbn [evaluate]; [discriminate|]. apply throw_unless_no_ub. intros _. unfold IsDiscreteValue, IsRangeValue, optional_attributes, defined_at. no_ub; destruct t; try discriminate; apply IH. }
  assert (Rg : forall t vs r, register Deqb t vs r <> UB) by (intros; unfold register; no_ub).
  assert (Lt : forall l r, load_types to_double to_int null_text Dleb Deqb l r <> UB).
  { induction l as [|[kn vn] l IH]; intro r; cbn [load_types]; [discriminate|]. apply obind_no_ub; [unfold EvaluateRuleType; no_ub; apply Ev|]. intros [] _; [discriminate| |].
    - apply obind_no_ub; [apply as_id_no_ub|]. intros id _. apply obind_no_ub; [apply each_ok_no_ub; intros e _; apply Ld|]. intros vs _. apply obind_no_ub; [apply Rg|]. intros r' _. apply IH.
    - apply obind_no_ub; [apply as_id_no_ub|]. intros id _. apply obind_no_ub; [apply each_ok_no_ub; intros e _; apply Lr|]. intros vs _. apply obind_no_ub; [apply Rg|]. intros r' _. apply IH. }
  intro n. unfold LoadRuleRegistry. no_ub. apply Lt.
Qed.
Print Assumptions rule_registry_never_aborts.

(** Consequences for accepted registries. *)
Theorem rule_registry_sound {D} (to_double : string -> option D) to_int null_text Dleb Deqb : 
  (forall x y, Dleb x y = true -> Dleb x x = true /\ Dleb y y = true) -> (forall x y, Dleb x x = true -> (Deqb x y = true <-> x = y)) ->
  forall n r, tidy_registry n -> LoadRuleRegistry to_double to_int null_text Dleb Deqb n = Ok r ->
  NoDup (map fst r) /\ forall t vs, In (t, vs) r -> t <> "" /\ vs <> [] /\ (Forall is_discrete vs \/ Forall is_range vs) /\
    Forall (fun v => match v with Discrete a _ => (0 <= ra_severity a)%Z | Range a _ lo hi => (0 <= ra_severity a)%Z /\ Dleb lo hi = true end) vs.
Proof.
  intros H1 H2 n r T H. apply load_registry_ok in H; auto. destruct H as [(l & _ & F) N]. split; [exact N|]. intros t vs I.
  assert (X : exists p, ident null_text (fst p) t /\ denotes_type to_double to_int null_text Dleb (snd p) vs).
  { clear -F I. induction F as [|p e l r H F IH]; [destruct I|]. destruct I as [->|I]; [exists p; exact H|exact (IH I)]. }
  destruct X as (p & [_ Ne] & l' & _ & Fd & _ & Hd). split; [exact Ne|]. split.
  { intros ->. inversion Fd; subst. destruct Hd as [(_ & Ex & _)|(_ & Ex & _)]; inversion Ex. }
  split; [destruct Hd as [(A & _)|(A & _)]; auto|].
  assert (Sv : forall e a, denotes_attr to_int null_text e a -> (0 <= ra_severity a)%Z) by (intros e a ([[_ ->]|(s & _ & _ & L)] & _); lia).
  clear -Fd Sv. induction Fd as [|e v l vs H F IH]; constructor; auto. destruct v; cbn in H.
  - destruct H as [H _]. eauto.
  - destruct H as (H & _ & x & y & _ & _ & _ & L). eauto.
Qed.
Print Assumptions rule_registry_sound.

Definition demo_load := LoadRuleRegistry demo_double demo_int None Nat.leb Nat.eqb.
Definition doc (vs : list yaml) : yaml := Map [(Scalar "RuleRegistry", Map [(Scalar "T", Seq vs)])].
Definition dval (s : string) (l : list (yaml * yaml)) : yaml := Map ((Scalar "value", Scalar s) :: l).
Definition rval (d x y : string) : yaml := Map [(Scalar "description", Scalar d); (Scalar "range", Seq [Scalar x; Scalar y])].
Example demo_registry :
  demo_load (doc [dval "a" [(Scalar "severity", Scalar "1"); (Scalar "related_rules", Seq [Scalar "g"; Scalar "g"])]; dval "b" []]) =
    Ok [("T", [Discrete (mk_rattr 1 ["g"] []) "a"; Discrete (mk_rattr 0 [] []) "b"])] /\
  demo_load (doc [rval "slow" "0" "1"; rval "fast" "1" "2"]) = Ok [("T", [Range (mk_rattr 0 [] []) "slow" 0 1; Range (mk_rattr 0 [] []) "fast" 1 2])] /\
  demo_load (doc [rval "bad" "1" "0"]) = Throw /\ demo_load (doc [dval "a" []; rval "r" "0" "1"]) = Throw /\ demo_load (doc [dval "a" []; dval "a" []]) = Throw /\
  demo_load (doc []) = Throw /\ demo_load (doc [dval "a" [(Scalar "severity", Scalar "-1")]]) = Throw.
Proof. repeat split. Qed.
Example demo_registry_tidy : tidy_registry (doc [dval "a" [(Scalar "severity", Scalar "1")]; dval "b" []]).
Proof.
  intros l E p l' e I Es J m ->. assert (E' : entry (doc [dval "a" [(Scalar "severity", Scalar "1")]; dval "b" []]) "RuleRegistry" (Map [(Scalar "T", Seq [dval "a" [(Scalar "severity", Scalar "1")]; dval "b" []])])) by (apply lookup_entry; [discriminate|reflexivity]).
  pose proof (entry_functional _ _ _ _ E E') as X. injection X as ->. destruct I as [<-|[]]. cbn in Es. injection Es as <-.
  destruct J as [J|[J|[]]]; injection J as <-; (split; [repeat constructor; cbn; intuition discriminate|]); intros q; cbn; intuition; subst; discriminate.
Qed.

(** Attributes nobody knows make a value refused, but not when the type has another, clean
    value; in that way even a range of values beside a discrete value is accepted, as a
    discrete value. *)
Theorem unknown_attribute_refuted :
  (exists v clean r, demo_load (doc [v]) = Throw /\ ~ discrete_shape v /\ demo_load (doc [clean; v]) = Ok r) /\
  (exists v clean d a, entry v "range" (Seq [Scalar "0"; Scalar "1"]) /\ entry v "description" (Scalar "r") /\ demo_load (doc [clean; v]) = Ok [("T", [Discrete a d; Discrete a "b"])]).
Proof.
  split.
  - exists (dval "b" [(Scalar "sverity", Scalar "1")]), (dval "a" []), [("T", [Discrete (mk_rattr 0 [] []) "a"; Discrete (mk_rattr 0 [] []) "b"])]. split; [reflexivity|]. split; [|reflexivity].
    intros [_ (l & E & H)]. injection E as <-. destruct (H (Scalar "sverity", Scalar "1")) as (k & I & E); [right; left; reflexivity|]. cbn in E. injection E as <-. cbn in I. intuition discriminate.
  - exists (dval "b" [(Scalar "description", Scalar "r"); (Scalar "range", Seq [Scalar "0"; Scalar "1"])]), (dval "a" []), "a", (mk_rattr 0 [] []).
    split; [apply lookup_entry; [discriminate|reflexivity]|]. split; [apply lookup_entry; [discriminate|reflexivity]|]. reflexivity.
Qed.
Print Assumptions unknown_attribute_refuted.
