(** Models of PhaseRing (src/maliput/api/rules/phase_ring.cc), ManualPhaseRingBook
    (src/maliput/base/manual_phase_ring_book.cc), ManualPhaseProvider
    (src/maliput/base/manual_phase_provider.cc) and the phase driven state providers
    (phase_based_right_of_way_rule_state_provider.cc,
    phased_discrete_rule_state_provider.cc).
    Ids, right-of-way state ids, discrete values and bulb states are natural
    numbers; maps are association lists.  What [unordered_map::begin()] points at
    is unspecified: the model takes it as an argument of the call. *)
From Coq Require Import List QArith Bool Arith.
From Verif Require Import Base Maps.
Import ListNotations.

(** Phase: include/maliput/api/rules/phase.h 66-120, src/maliput/api/rules/phase.cc 40-45. *)
Record phase := mk_phase {
  ph_id : nat;
  ph_row : list (nat * nat);              (* rule_states() *)
  ph_disc : list (nat * nat);             (* discrete_value_rule_states() *)
  ph_bulbs : option (list (nat * nat)) }. (* bulb_states() *)

(** PhaseRing::NextPhase and members: include/maliput/api/rules/phase_ring.h. *)
Definition next_phase : Type := nat * option Q.
Record ring := mk_ring { rg_id : nat; rg_phases : list (nat * phase); rg_next : list (nat * list next_phase) }.

Definition has (k : nat) {V} (m : list (nat * V)) : bool := mhas Nat.eqb k m.

(** One phase against the reference phase: phase_ring.cc 49-78.  Dereferencing an
    empty optional (line 70) is [UB]. *)
Definition same_keys {V} (m ref : list (nat * V)) : bool :=
  Nat.eqb (length m) (length ref) && forallb (fun s => has (fst s) ref) m.

Definition verify_phase (r p : phase) : outcome unit :=
  throw_unless (same_keys (ph_row p) (ph_row r))
    (throw_unless (same_keys (ph_disc p) (ph_disc r))
       (match ph_bulbs r with
        | None => Ok tt
        | Some rb => match ph_bulbs p with
                     | None => UB
                     | Some pb => throw_unless (same_keys pb rb) (Ok tt)
                     end
        end)).

Fixpoint verify_each (r : phase) (ps : list phase) : outcome unit :=
  match ps with [] => Ok tt | p :: ps' => obind (verify_phase r p) (fun _ => verify_each r ps') end.

(** VerifyAllPhasesHaveSameCoverage: phase_ring.cc 46-79. *)
Definition verify_coverage (ps : list phase) : outcome unit :=
  match ps with [] => Throw | r :: _ => verify_each r ps end.

(** phases_.emplace for every phase: phase_ring.cc 100-104. *)
Fixpoint emplace_phases (ps : list phase) (m : list (nat * phase)) : outcome (list (nat * phase)) :=
  match ps with
  | [] => Ok m
  | p :: ps' => match memplace Nat.eqb (ph_id p) p m with Some m' => emplace_phases ps' m' | None => Throw end
  end.

(** VerifyNextPhases 83-92 and lines 105-112. *)
Definition make_next (ps : list phase) (next : option (list (nat * list next_phase))) : outcome (list (nat * list next_phase)) :=
  match next with
  | Some n => throw_unless (Nat.eqb (length ps) (length n) && forallb (fun p => has (ph_id p) n) ps) (Ok n)
  | None => Ok (map (fun p => (ph_id p, [])) ps)
  end.

(** PhaseRing::PhaseRing: phase_ring.cc 96-114. *)
Definition PhaseRing (id : nat) (ps : list phase) (next : option (list (nat * list next_phase))) : outcome ring :=
  throw_unless (Nat.leb 1 (length ps))
    (obind (emplace_phases ps []) (fun m =>
     obind (make_next ps next) (fun n =>
     obind (verify_coverage ps) (fun _ => Ok (mk_ring id m n))))).

(** PhaseRing::GetPhase: phase_ring.cc 116-118. *)
Definition GetPhase (r : ring) (id : nat) : option phase := mfind Nat.eqb id (rg_phases r).

(** ** ManualPhaseRingBook *)
(** Members: manual_phase_ring_book.cc 129-131. *)
Record rbook := mk_rbook { rings : list (nat * ring); row_of : list (nat * nat); rule_of : list (nat * nat) }.
Definition rb_empty : rbook := mk_rbook [] [] [].

(** ring.phases().begin()->second: [pick] stands for the hash order. *)
Definition begin_phase (pick : nat) (r : ring) : phase :=
  nth pick (map snd (rg_phases r)) (match rg_phases r with (_, p) :: _ => p | [] => mk_phase 0 [] [] None end).

(** right_of_way_rule_book_.emplace / rule_book_.emplace with the throw: 61-74. *)
Definition put_row (ring_id rule : nat) : action rbook :=
  fun b => match memplace Nat.eqb rule ring_id (row_of b) with
           | Some m => (mk_rbook (rings b) m (rule_of b), true)
           | None => (b, false)
           end.
Definition put_rule (ring_id rule : nat) : action rbook :=
  fun b => match memplace Nat.eqb rule ring_id (rule_of b) with
           | Some m => (mk_rbook (rings b) (row_of b) m, true)
           | None => (b, false)
           end.
(** MALIPUT_THROW_UNLESS(book.erase(rule) == 1): 86-92. *)
Definition drop_row (rule : nat) : action rbook :=
  fun b => (mk_rbook (rings b) (merase Nat.eqb rule (row_of b)) (rule_of b), has rule (row_of b)).
Definition drop_rule (rule : nat) : action rbook :=
  fun b => (mk_rbook (rings b) (row_of b) (merase Nat.eqb rule (rule_of b)), has rule (rule_of b)).

(** AddPhaseRing: 53-75. *)
Definition put_ring (r : ring) : action rbook :=
  fun b => match memplace Nat.eqb (rg_id r) r (rings b) with
           | Some m => (mk_rbook m (row_of b) (rule_of b), true)
           | None => (b, false)
           end.
Definition AddPhaseRing (pick : nat) (r : ring) : action rbook :=
  put_ring r ;;
  act_each (put_row (rg_id r)) (map fst (ph_row (begin_phase pick r))) ;;
  act_each (put_rule (rg_id r)) (map fst (ph_disc (begin_phase pick r))).

(** RemovePhaseRing: 77-93. *)
Definition RemovePhaseRing (pick : nat) (id : nat) : action rbook :=
  fun b => match mfind Nat.eqb id (rings b) with
           | None => (b, false)
           | Some r =>
               (act_do (fun b => mk_rbook (merase Nat.eqb id (rings b)) (row_of b) (rule_of b)) ;;
                act_each drop_row (map fst (ph_row (begin_phase pick r))) ;;
                act_each drop_rule (map fst (ph_disc (begin_phase pick r)))) b
           end.

(** DoGetPhaseRings 95-102, DoGetPhaseRing 104-110. *)
Definition GetPhaseRings (b : rbook) : list nat := map fst (rings b).
Definition GetPhaseRing (b : rbook) (id : nat) : option ring := mfind Nat.eqb id (rings b).

(** DoFindPhaseRing: 112-126. *)
Definition find_in (b : rbook) (idx : list (nat * nat)) (rule : nat) : outcome (option ring) :=
  match mfind Nat.eqb rule idx with
  | None => Ok None
  | Some id => match mfind Nat.eqb id (rings b) with Some r => Ok (Some r) | None => Throw end
  end.
Definition FindPhaseRingRow (b : rbook) (rule : nat) : outcome (option ring) := find_in b (row_of b) rule.
Definition FindPhaseRingRule (b : rbook) (rule : nat) : outcome (option ring) := find_in b (rule_of b) rule.

Inductive rop := AddR (pick : nat) (r : ring) | RemR (pick id : nat).
Definition rstep (o : rop) : action rbook :=
  match o with AddR p r => AddPhaseRing p r | RemR p id => RemovePhaseRing p id end.

(** ** ManualPhaseProvider *)
(** PhaseProvider::Result: state and optional next (state, duration). *)
Record presult := mk_presult { p_state : nat; p_next : option (nat * option Q) }.
Definition provider : Type := list (nat * presult).

(** ComputeNext: manual_phase_provider.cc 111-118. *)
Definition compute_next (next : option nat) (dur : option Q) : option (nat * option Q) :=
  match next with Some n => Some (n, dur) | None => None end.
(** The check of lines 81-85 and 95-97. *)
Definition duration_ok (next : option nat) (dur : option Q) : bool :=
  match dur, next with Some _, None => false | _, _ => true end.

(** AddPhaseRing 78-91, SetPhase 93-100, DoGetPhase 102-108. *)
Definition AddRing (id ph : nat) (next : option nat) (dur : option Q) : action provider :=
  act_check (fun _ => duration_ok next dur) ;;
  (fun m => match memplace Nat.eqb id (mk_presult ph (compute_next next dur)) m with
            | Some m' => (m', true)
            | None => (m, false)
            end).
Definition SetPhase (id ph : nat) (next : option nat) (dur : option Q) : action provider :=
  act_check (fun _ => duration_ok next dur) ;;
  act_check (fun m => has id m) ;;
  act_do (fun m => mset Nat.eqb id (mk_presult ph (compute_next next dur)) m).
Definition ProviderGetPhase (m : provider) (id : nat) : option presult := mfind Nat.eqb id m.

Inductive pop := AddP (id ph : nat) (next : option nat) (dur : option Q)
               | SetP (id ph : nat) (next : option nat) (dur : option Q).
Definition pstep (o : pop) : action provider :=
  match o with AddP i p n d => AddRing i p n d | SetP i p n d => SetPhase i p n d end.

(** ** Phase driven state providers *)
(** unordered_map::at *)
Definition at_key {V} (m : list (nat * V)) (k : nat) : outcome V :=
  match mfind Nat.eqb k m with Some v => Ok v | None => Throw end.

(** Common part: phase_based_... 58-75, phased_discrete_... 91-103;
    [sel] is rule_states() or discrete_value_rule_states(). *)
Definition state_in (sel : phase -> list (nat * nat)) (r : ring) (rule : nat) (pr : presult) : outcome presult :=
  obind (at_key (rg_phases r) (p_state pr)) (fun ph =>
  obind (at_key (sel ph) rule) (fun v =>
    match p_next pr with
    | None => Ok (mk_presult v None)
    | Some (n, d) =>
        obind (at_key (rg_phases r) n) (fun nph =>
        obind (at_key (sel nph) rule) (fun nv => Ok (mk_presult v (Some (nv, d)))))
    end)).

(** PhaseBasedRightOfWayRuleStateProvider::DoGetState: 51-80. *)
Definition PhaseBasedGetState (b : rbook) (m : provider) (rule : nat) : outcome (option presult) :=
  obind (FindPhaseRingRow b rule) (fun o =>
    match o with
    | None => Ok None
    | Some r => match ProviderGetPhase m (rg_id r) with
                | None => Ok None
                | Some pr => omap Some (state_in ph_row r rule pr)
                end
    end).

(** PhasedDiscreteRuleStateProvider::DoGetState(rule_id): 87-107; [manual] is the
    inherited ManualDiscreteValueRuleStateProvider::DoGetState. *)
Definition PhasedDiscreteGetState (b : rbook) (m : provider) (manual : nat -> option presult) (rule : nat)
  : outcome (option presult) :=
  obind (FindPhaseRingRule b rule) (fun o =>
    match o with
    | None => Ok (manual rule)
    | Some r => match ProviderGetPhase m (rg_id r) with
                | None => Ok (manual rule)
                | Some pr => omap Some (state_in ph_disc r rule pr)
                end
    end).

(** GetDefaultPopulatedManualPhaseProvider: manual_phase_provider.cc 44-69.  [pick]
    gives, per ring, what phases().begin() points at. *)
Definition default_entry (pick : nat -> nat) (r : ring) : outcome (option (nat * option (nat * option Q))) :=
  match rg_phases r with
  | [] => Ok None
  | _ => let ph := ph_id (begin_phase (pick (rg_id r)) r) in
         obind (at_key (rg_next r) ph) (fun ns =>
           Ok (Some (ph, match ns with [] => None | (n, d) :: _ => Some (n, d) end)))
  end.
Fixpoint default_loop (pick : nat -> nat) (b : rbook) (ids : list nat) (m : provider) : outcome provider :=
  match ids with
  | [] => Ok m
  | id :: ids' =>
      match GetPhaseRing b id with
      | None => Throw
      | Some r =>
          obind (default_entry pick r) (fun e =>
            match e with
            | None => default_loop pick b ids' m
            | Some (ph, nx) =>
                let (m', ok) := AddRing id ph (option_map fst nx) (match nx with Some (_, d) => d | None => None end) m in
                if ok then default_loop pick b ids' m' else Throw
            end)
      end
  end.
Definition GetDefaultPhaseProvider (pick : nat -> nat) (b : rbook) : outcome provider :=
  default_loop pick b (GetPhaseRings b) [].
