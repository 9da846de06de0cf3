(** Models of IntersectionBook (src/maliput/base/intersection_book.cc) and
    Intersection (src/maliput/api/intersection.cc, src/maliput/base/intersection.cc). *)
From Coq Require Import List QArith Bool Arith.
From Verif Require Import Base Maps Regions_Model Phases_Model.
Import ListNotations.

(** Members: include/maliput/api/intersection.h; intersection.cc 39-40. *)
Record inter := mk_inter { i_id : nat; i_region : list lsrange; i_ring : ring }.
Definition book : Type := list (nat * inter).

(** AddIntersection: intersection_book.cc 54-60.  [None] is a null pointer.
    When the id is present, emplace may or may not have moved from the argument
    ([moves]); if it did, line 58 dereferences a null pointer. *)
Definition AddIntersection (moves : bool) (i : option inter) (b : book) : outcome book :=
  match i with
  | None => Throw
  | Some i => match memplace Nat.eqb (i_id i) i b with
              | Some b' => Ok b'
              | None => if moves then UB else Throw
              end
  end.
(** A history of calls: a throwing call leaves the book as it was; undefined
    behaviour ends the history. *)
Fixpoint add_all (moves : bool) (h : list (option inter)) (b : book) : outcome book :=
  match h with
  | [] => Ok b
  | i :: h' => match AddIntersection moves i b with
               | Ok b' => add_all moves h' b'
               | Throw => add_all moves h' b
               | UB => UB
               end
  end.

(** DoGetIntersection(id): 72-78. *)
Definition GetIntersectionById (b : book) (id : nat) : option inter := mfind Nat.eqb id b.

Section Includes.
(** Intersection::Phase()->state: base/intersection.cc 42-44 (a provider lookup). *)
Variable current : inter -> option nat.
(** UniqueBulbId::traffic_light_id(). *)
Variable light_of : nat -> nat.
(** What ToLanePosition gives per lane, as in [IsIncluded]. *)
Variable to_lane : nat -> option (Q * Q).
Variable linear_tolerance : Q.

(** The current phase of the ring; map::at throws: intersection.cc 43-47, 53-57, 65-69. *)
Definition current_phase (i : inter) : outcome (option phase) :=
  match current i with
  | None => Ok None
  | Some p => omap Some (at_key (rg_phases (i_ring i)) p)
  end.
(** bulb_states 42-50, DiscreteValueRuleStates 52-60, RuleStates 64-73. *)
Definition bulb_states (i : inter) : outcome (option (list (nat * nat))) :=
  omap (fun p => match p with Some p => ph_bulbs p | None => None end) (current_phase i).
Definition discrete_states (i : inter) : outcome (option (list (nat * nat))) := omap (option_map ph_disc) (current_phase i).
Definition row_states (i : inter) : outcome (option (list (nat * nat))) := omap (option_map ph_row) (current_phase i).

(** Includes(traffic light) 76-86. *)
Definition IncludesLight (id : nat) (i : inter) : outcome bool :=
  omap (fun s => match s with Some bs => existsb (fun b => Nat.eqb (light_of (fst b)) id) bs | None => false end) (bulb_states i).
(** Includes(discrete rule) 88-93, Includes(right of way rule) 97-100. *)
Definition IncludesRule (id : nat) (i : inter) : outcome bool :=
  omap (fun s => match s with Some m => has id m | None => false end) (discrete_states i).
Definition IncludesRow (id : nat) (i : inter) : outcome bool :=
  omap (fun s => match s with Some m => has id m | None => false end) (row_states i).
(** Includes(position) 103-106. *)
Definition IncludesPosition (i : inter) : outcome bool := IsIncluded to_lane linear_tolerance (i_region i).
End Includes.

(** The search loops: intersection_book.cc 80-87, 127-158, over the intersections in
    hash order. *)
Fixpoint find_inter (includes : inter -> outcome bool) (l : list inter) : outcome (option inter) :=
  match l with
  | [] => Ok None
  | i :: l' => obind (includes i) (fun x => if x : bool then Ok (Some i) else find_inter includes l')
  end.

(** std::find_if of 114-117. *)
Fixpoint any_intersects (r : lsrange) (region : list lsrange) (tol : Q) : outcome bool :=
  match region with
  | [] => Ok false
  | x :: rest => obind (LIntersects r x tol) (fun h => if h : bool then Ok true else any_intersects r rest tol)
  end.
(** The loop of 113-122 over the intersection's region. *)
Fixpoint region_hit (own region : list lsrange) (tol : Q) : outcome bool :=
  match own with
  | [] => Ok false
  | r :: own' => obind (any_intersects r region tol) (fun h => if h : bool then Ok true else region_hit own' region tol)
  end.
(** FindIntersections: 107-125. *)
Fixpoint FindIntersections (l : list inter) (region : list lsrange) (tol : Q) : outcome (list inter) :=
  match l with
  | [] => Ok []
  | i :: l' => obind (region_hit (i_region i) region tol) (fun h =>
               obind (FindIntersections l' region tol) (fun rest => Ok (if h : bool then i :: rest else rest)))
  end.
