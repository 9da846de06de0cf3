(** What documents mean, independently of the loaders: relations between nodes and the
    things they describe. *)
From Coq Require Import String List ZArith.
From Verif Require Import Maps Loaders_Model.
Import ListNotations.
Local Open Scope string_scope.

(** The map [n] has [v] under the key [k] (the first one, if the key is repeated). *)
Definition entry (n : yaml) (k : string) (v : yaml) : Prop :=
  v <> Undefined /\ exists l1 l2, n = Map (l1 ++ (Scalar k, v) :: l2)%list /\ forall w, ~ In (Scalar k, w) l1.
Definition absent (n : yaml) (k : string) : Prop := forall v, ~ entry n k v.
Definition a_map (n : yaml) : Prop := exists l, n = Map l.

(** The names of enumerators. *)
Definition color_name (c : bcolor) : string := match c with Red => "Red" | Yellow => "Yellow" | Green => "Green" end.
Definition type_name (t : btype) : string := match t with Round => "Round" | Arrow => "Arrow" end.
Definition state_name (s : bstate) : string := match s with Off => "Off" | On => "On" | Blinking => "Blinking" end.

Section Meaning.
Context {D : Type} (to_double : string -> option D) (to_int : string -> option Z) (null_text : option string).

(** A node that is a text, a (non-empty) identifier, a number. *)
Definition text (n : yaml) (s : string) : Prop := n = Scalar s \/ (n = Null /\ null_text = Some s).
Definition ident (n : yaml) (s : string) : Prop := text n s /\ s <> "".
Definition number (n : yaml) (x : D) : Prop := exists s, n = Scalar s /\ to_double s = Some x.
Definition text_at (n : yaml) (k s : string) : Prop := exists v, entry n k v /\ text v s.
Definition ident_at (n : yaml) (k s : string) : Prop := exists v, entry n k v /\ ident v s.
Definition number_at (n : yaml) (k : string) (x : D) : Prop := exists v, entry n k v /\ number v x.
Definition vec3_at (n : yaml) (k : string) (v : vec3 (D := D)) : Prop :=
  let '(x, y, z) := v in exists a b c, entry n k (Seq [a; b; c]) /\ number a x /\ number b y /\ number c z.
Definition vec4_at (n : yaml) (k : string) (v : vec4 (D := D)) : Prop :=
  let '(w, x, y, z) := v in exists a b c d, entry n k (Seq [a; b; c; d]) /\ number a w /\ number b x /\ number c y /\ number d z.

(** ** Traffic lights *)
Definition denotes_bulb (n : yaml) (b : bulb (D := D)) : Prop :=
  ident_at n "ID" (b_id b) /\
  (exists pose, entry n "Pose" pose /\ vec3_at pose "position_bulb_group" (b_pos b) /\ vec4_at pose "orientation_bulb_group" (b_rot b)) /\
  match b_box b with
  | None => absent n "BoundingBox"
  | Some (lo, hi) => exists box, entry n "BoundingBox" box /\ vec3_at box "min" lo /\ vec3_at box "max" hi
  end /\
  text_at n "Color" (color_name (b_color b)) /\
  text_at n "Type" (type_name (b_type b)) /\
  match b_type b, b_arrow b with
  | Round, None => True
  | Arrow, Some a => number_at n "ArrowOrientation" a
  | _, _ => False
  end /\
  ((absent n "States" /\ b_states b = [On; Off]) \/
   (entry n "States" (Seq []) /\ b_states b = [Off; On]) \/
   (exists l, entry n "States" (Seq l) /\ l <> [] /\ Forall2 (fun v s => text v (state_name s)) l (b_states b))).
Definition denotes_group (n : yaml) (g : bulb_group (D := D)) : Prop :=
  ident_at n "ID" (bg_id g) /\
  (exists pose, entry n "Pose" pose /\ vec3_at pose "position_traffic_light" (bg_pos g) /\ vec4_at pose "orientation_traffic_light" (bg_rot g)) /\
  (exists l, entry n "Bulbs" (Seq l) /\ Forall2 denotes_bulb l (bg_bulbs g)) /\
  bg_bulbs g <> [] /\ NoDup (map b_id (bg_bulbs g)).
Definition denotes_light (n : yaml) (t : traffic_light (D := D)) : Prop :=
  ident_at n "ID" (tl_id t) /\
  (exists pose, entry n "Pose" pose /\ vec3_at pose "position_road_network" (tl_pos t) /\ vec4_at pose "orientation_road_network" (tl_rot t)) /\
  (exists l, entry n "BulbGroups" (Seq l) /\ Forall2 denotes_group l (tl_groups t)) /\
  NoDup (map bg_id (tl_groups t)).
Definition denotes_book (n : yaml) (book : list (traffic_light (D := D))) : Prop :=
  (exists l, entry n "TrafficLights" (Seq l) /\ Forall2 denotes_light l book) /\ NoDup (map tl_id book).

(** A writer of such documents; [show] prints numbers. *)
Section Writer.
Variable show : D -> string.
Definition num (x : D) : yaml := Scalar (show x).
Definition write3 (v : vec3 (D := D)) : yaml := let '(x, y, z) := v in Seq [num x; num y; num z].
Definition write4 (v : vec4 (D := D)) : yaml := let '(w, x, y, z) := v in Seq [num w; num x; num y; num z].
Definition write_bulb (b : bulb (D := D)) : yaml :=
  Map ([(Scalar "ID", Scalar (b_id b)); (Scalar "Pose", Map [(Scalar "position_bulb_group", write3 (b_pos b)); (Scalar "orientation_bulb_group", write4 (b_rot b))])]
       ++ match b_box b with None => [] | Some (lo, hi) => [(Scalar "BoundingBox", Map [(Scalar "min", write3 lo); (Scalar "max", write3 hi)])] end
       ++ [(Scalar "Color", Scalar (color_name (b_color b))); (Scalar "Type", Scalar (type_name (b_type b)))]
       ++ match b_arrow b with None => [] | Some a => [(Scalar "ArrowOrientation", num a)] end
       ++ [(Scalar "States", Seq (map (fun s => Scalar (state_name s)) (b_states b)))])%list.
Definition write_group (g : bulb_group (D := D)) : yaml :=
  Map [(Scalar "ID", Scalar (bg_id g)); (Scalar "Pose", Map [(Scalar "position_traffic_light", write3 (bg_pos g)); (Scalar "orientation_traffic_light", write4 (bg_rot g))]);
       (Scalar "Bulbs", Seq (map write_bulb (bg_bulbs g)))].
Definition write_light (t : traffic_light (D := D)) : yaml :=
  Map [(Scalar "ID", Scalar (tl_id t)); (Scalar "Pose", Map [(Scalar "position_road_network", write3 (tl_pos t)); (Scalar "orientation_road_network", write4 (tl_rot t))]);
       (Scalar "BulbGroups", Seq (map write_group (tl_groups t)))].
Definition write_book (book : list (traffic_light (D := D))) : yaml := Map [(Scalar "TrafficLights", Seq (map write_light book))].
End Writer.
(** Books that can exist: what the constructors demand. *)
Definition good_bulb (b : bulb (D := D)) : Prop := b_id b <> "" /\ (b_type b = Arrow <-> b_arrow b <> None) /\ b_states b <> [].
Definition good_group (g : bulb_group (D := D)) : Prop := bg_id g <> "" /\ Forall good_bulb (bg_bulbs g) /\ bg_bulbs g <> [] /\ NoDup (map b_id (bg_bulbs g)).
Definition good_light (t : traffic_light (D := D)) : Prop := tl_id t <> "" /\ Forall good_group (tl_groups t) /\ NoDup (map bg_id (tl_groups t)).
Definition good_book (book : list (traffic_light (D := D))) : Prop := Forall good_light book /\ NoDup (map tl_id book).

(** ** Phase rings *)
Context {R : Type}.
(** The last value written under the key [id]: what a sequence of writes leaves. *)
Definition last_written (l : list (yaml * yaml)) (id s : string) : Prop :=
  exists l1 l2 kn vn, l = (l1 ++ (kn, vn) :: l2)%list /\ text kn id /\ text vn s /\ forall p, In p l2 -> ~ text (fst p) id.
Definition not_written (l : list (yaml * yaml)) (id : string) : Prop := forall p, In p l -> ~ text (fst p) id.
(** The phase [n] writes the state [s] of the rule [id]; it does not mention the rule. *)
Definition phase_writes (n : yaml) (id s : string) : Prop := exists l, entry n "RightOfWayRuleStates" (Map l) /\ last_written l id s.
Definition phase_omits (n : yaml) (id : string) : Prop := forall l, entry n "RightOfWayRuleStates" (Map l) -> not_written l id.
(** [v] is the (first) value called [s] of the values [vs]. *)
Definition value_called (vs : list (dvalue (R := R))) (s : string) (v : dvalue (R := R)) : Prop :=
  exists l1 l2, vs = (l1 ++ v :: l2)%list /\ fst v = s /\ forall w, In w l1 -> fst w <> s.
(** The default value of a rule: Stop if there is one, else StopThenGo, else Go. *)
Definition default_value (vs : list (dvalue (R := R))) (v : dvalue (R := R)) : Prop :=
  value_called vs "Stop" v \/
  (value_called vs "StopThenGo" v /\ forall w, In w vs -> fst w <> "Stop") \/
  (value_called vs "Go" v /\ forall w, In w vs -> fst w <> "Stop" /\ fst w <> "StopThenGo").
(** The rule [id] with values [vs] is one the ring is about. *)
Definition listed (rulebook : rules (R := R)) (n : yaml) (id : string) (vs : list (dvalue (R := R))) : Prop :=
  exists l e, entry n "Rules" (Seq l) /\ In e l /\ text e id /\ In (id, vs) rulebook.
(** The phase nodes of a ring. *)
Definition phase_nodes (n : yaml) (l : list yaml) : Prop := entry n "Phases" (Seq l).

(** The bulbs of a phase: in the order of the document, the groups mentioned. *)
Inductive mentions : list (yaml * yaml) -> list (string * string * yaml) -> Prop :=
| mentions_nil : mentions [] []
| mentions_cons : forall kn gl tl l ms ms', text kn tl -> Forall2 (fun p m => text (fst p) (snd (fst m)) /\ fst (fst m) = tl /\ snd m = snd p) gl ms -> mentions l ms' ->
    mentions ((kn, Map gl) :: l) (ms ++ ms')%list.
(** The last mention of the group [g] of the light [tl]. *)
Definition last_mention (ms : list (string * string * yaml)) (tl g : string) (n : yaml) : Prop :=
  exists m1 m2, ms = (m1 ++ (tl, g, n) :: m2)%list /\ forall n', ~ In (tl, g, n') m2.
(** The default state of a bulb: Off if it has it, else Blinking, else On. *)
Definition default_bulb_state (b : bulb (D := D)) (s : bstate) : Prop :=
  In s (b_states b) /\ (s = Off \/ (s = Blinking /\ ~ In Off (b_states b)) \/ (s = On /\ ~ In Off (b_states b) /\ ~ In Blinking (b_states b))).
(** What the group node [n] says about bulb [b]. *)
Definition bulb_says (n : yaml) (b : bulb (D := D)) (s : bstate) : Prop :=
  text_at n (b_id b) (state_name s) \/ (absent n (b_id b) /\ default_bulb_state b s).
Definition has_bulb (book : list (traffic_light (D := D))) (tl g : string) (b : bulb (D := D)) : Prop :=
  exists t gr, In t book /\ tl_id t = tl /\ In gr (tl_groups t) /\ bg_id gr = g /\ In b (bg_bulbs gr).
(** The states of bulbs of the phase [n]: none if it has no TrafficLightStates; otherwise those
    of the bulbs of the groups mentioned, as the last mention of the group says. *)
Definition bulbs_of_phase (book : list (traffic_light (D := D))) (n : yaml) (o : option (list (bulb_key * bstate))) : Prop :=
  match o with
  | None => absent n "TrafficLightStates"
  | Some m => exists l ms, entry n "TrafficLightStates" (Map l) /\ mentions l ms /\
      forall tl g id s, mfind key_eqb (tl, g, id) m = Some s <->
                        exists node b, last_mention ms tl g node /\ has_bulb book tl g b /\ b_id b = id /\ bulb_says node b s
  end.
(** Among the phases [l] up to the [k]-th, the [j]-th is the last to mention the rule [id], and
    it writes [s]; none mentions it. *)
Definition last_set (l : list yaml) (k : nat) (id s : string) (j : nat) : Prop :=
  j <= k /\ phase_writes (nth j l Undefined) id s /\ forall i, j < i -> i <= k -> phase_omits (nth i l Undefined) id.
Definition never_set (l : list yaml) (k : nat) (id : string) : Prop := forall i, i <= k -> phase_omits (nth i l Undefined) id.

(** Documents of rings that are accepted. *)
Definition rule_states_ok (rulebook : rules (R := R)) (n : yaml) (pn : yaml) : Prop :=
  absent pn "RightOfWayRuleStates" \/
  exists l, entry pn "RightOfWayRuleStates" (Map l) /\
    forall p, In p l -> exists id s vs v, ident (fst p) id /\ text (snd p) s /\ listed rulebook n id vs /\ In v vs /\ fst v = s.
Definition bulb_states_ok (book : list (traffic_light (D := D))) (pn : yaml) : Prop :=
  absent pn "TrafficLightStates" \/
  exists l, entry pn "TrafficLightStates" (Map l) /\
    forall p, In p l -> exists id t gl, ident (fst p) id /\ In t book /\ tl_id t = id /\ snd p = Map gl /\
      forall q, In q gl -> exists gid g bl, ident (fst q) gid /\ In g (tl_groups t) /\ bg_id g = gid /\ snd q = Map bl /\
        (forall r, In r bl -> exists b, In b (bg_bulbs g) /\ ident (fst r) (b_id b)) /\
        (forall b, In b (bg_bulbs g) -> absent (Map bl) (b_id b) \/ exists s, text_at (Map bl) (b_id b) (state_name s)).
Definition phase_id (n : yaml) (id : string) : Prop := ident_at n "ID" id.
Definition next_ok (ids : list string) (e : yaml) : Prop :=
  exists id, ident_at e "ID" id /\ In id ids /\ (absent e "duration_until" \/ exists d, number_at e "duration_until" d).
Definition graph_ok (ids : list string) (gn : yaml) : Prop :=
  (forall e l, gn <> Seq (e :: l)) /\
  forall l, gn = Map l -> forall p, In p l -> exists id nl, ident (fst p) id /\ In id ids /\ snd p = Seq nl /\ Forall (next_ok ids) nl.
Definition ring_ok (rulebook : rules (R := R)) (book : list (traffic_light (D := D))) (n : yaml) : Prop :=
  (exists id, ident_at n "ID" id) /\
  (exists l, entry n "Rules" (Seq l) /\
     (rulebook <> [] -> forall e, In e l -> exists id vs v, ident e id /\ In (id, vs) rulebook /\ default_value vs v)) /\
  exists pl ids, phase_nodes n pl /\ Forall2 phase_id pl ids /\ Forall (rule_states_ok rulebook n) pl /\ Forall (bulb_states_ok book) pl /\
    (absent n "PhaseTransitionGraph" \/ exists gn, entry n "PhaseTransitionGraph" gn /\ graph_ok ids gn).
(** The transitions written. *)
Definition denotes_next (e : yaml) (x : next_phase (D := D)) : Prop :=
  ident_at e "ID" (fst x) /\ match snd x with Some d => number_at e "duration_until" d | None => absent e "duration_until" end.
(** The list under the first key [id]. *)
Definition graph_entry (l : list (yaml * yaml)) (id : string) (nl : list yaml) : Prop :=
  exists l1 kn l2, l = (l1 ++ (kn, Seq nl) :: l2)%list /\ text kn id /\ forall p, In p l1 -> ~ text (fst p) id.
Definition denotes_graph (gn : yaml) (next : list (string * list (next_phase (D := D)))) : Prop :=
  NoDup (map fst next) /\
  forall id ns, In (id, ns) next <-> exists l nl, gn = Map l /\ graph_entry l id nl /\ Forall2 denotes_next nl ns.

(** ** Rule registries *)
Variable Dleb : D -> D -> bool.
Definition keys_at (n : yaml) (k : string) (ks : list string) : Prop :=
  (absent n k /\ ks = []) \/ exists l ts, entry n k (Seq l) /\ Forall2 text l ts /\ ks = nodup string_dec ts.
Definition severity_at (n : yaml) (z : Z) : Prop :=
  (absent n "severity" /\ z = 0%Z) \/ exists s, entry n "severity" (Scalar s) /\ to_int s = Some z /\ (0 <= z)%Z.
Definition denotes_attr (n : yaml) (a : rattr) : Prop :=
  severity_at n (ra_severity a) /\ keys_at n "related_rules" (ra_rules a) /\ keys_at n "related_unique_ids" (ra_ids a).
Definition denotes_value (n : yaml) (v : rvalue (D := D)) : Prop :=
  match v with
  | Discrete a s => denotes_attr n a /\ text_at n "value" s
  | Range a d lo hi => denotes_attr n a /\ text_at n "description" d /\
      exists x y, entry n "range" (Seq [x; y]) /\ number x lo /\ number y hi /\ Dleb lo hi = true
  end.
(** Nodes with the keys of a discrete value (of a range) and no others. *)
Definition only_keys (n : yaml) (ks : list string) : Prop := exists l, n = Map l /\ forall p, In p l -> exists k, In k ks /\ fst p = Scalar k.
Definition discrete_shape (n : yaml) : Prop :=
  (exists v, entry n "value" v) /\ only_keys n ["value"; "severity"; "related_rules"; "related_unique_ids"].
Definition range_shape (n : yaml) : Prop :=
  (exists v, entry n "range" v) /\ (exists v, entry n "description" v) /\
  only_keys n ["range"; "description"; "severity"; "related_rules"; "related_unique_ids"].
(** Equal values: the order of the keys of related things does not matter. *)
Definition same_keys (l m : list string) : Prop := forall k, In k l <-> In k m.
Definition same_attr (a b : rattr) : Prop := ra_severity a = ra_severity b /\ same_keys (ra_rules a) (ra_rules b) /\ same_keys (ra_ids a) (ra_ids b).
Definition same_value (v w : rvalue (D := D)) : Prop :=
  match v, w with
  | Discrete a s, Discrete b t => same_attr a b /\ s = t
  | Range a d lo hi, Range b e lo' hi' => same_attr a b /\ d = e /\ lo = lo' /\ hi = hi'
  | _, _ => False
  end.
Definition is_discrete (v : rvalue (D := D)) : Prop := match v with Discrete _ _ => True | Range _ _ _ _ => False end.
Definition is_range (v : rvalue (D := D)) : Prop := match v with Discrete _ _ => False | Range _ _ _ _ => True end.
Definition denotes_type (n : yaml) (vs : list (rvalue (D := D))) : Prop :=
  exists l, n = Seq l /\ Forall2 denotes_value l vs /\ ForallOrdPairs (fun v w => ~ same_value v w) vs /\
    ((Forall is_discrete vs /\ Exists discrete_shape l /\ Forall (fun e => ~ range_shape e) l) \/
     (Forall is_range vs /\ Exists range_shape l /\ Forall (fun e => ~ discrete_shape e) l)).
Definition denotes_registry (n : yaml) (r : registry (D := D)) : Prop :=
  (exists l, entry n "RuleRegistry" (Map l) /\ Forall2 (fun p e => ident (fst p) (fst e) /\ denotes_type (snd p) (snd e)) l r) /\ NoDup (map fst r).
(** Value nodes have no repeated keys (YAML requires that of every map). *)
Definition tidy_map (n : yaml) : Prop := forall m, n = Map m -> NoDup (map fst m) /\ forall q, In q m -> snd q <> Undefined.
Definition tidy_types (l : list (yaml * yaml)) : Prop := forall p l' e, In p l -> snd p = Seq l' -> In e l' -> tidy_map e.
Definition tidy_registry (n : yaml) : Prop := forall l, entry n "RuleRegistry" (Map l) -> tidy_types l.
End Meaning.
