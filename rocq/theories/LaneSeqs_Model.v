(** Models of src/maliput/routing/find_lane_sequences.cc and derive_lane_s_routes.cc.
    Lanes are natural numbers, standing both for the pointer and the id; lane ends
    are [false] (kStart) and [true] (kFinish). *)
From Coq Require Import List Arith Bool QArith.
From Verif Require Import Base Regions_Model.
Import ListNotations.

Section Network.
(** Lane::GetOngoingBranches(end), Lane::length(), and the number of lanes, which only
    bounds the recursion of the model. *)
Variable ongoing : nat -> bool -> list (nat * bool).
Variable len : nat -> Q.
Variable num_lanes : nat.

Definition lmem (x : nat) (l : list nat) : bool := existsb (Nat.eqb x) l.

(** AddLanes (twice): find_lane_sequences.cc 47-52, 62-64. *)
Definition lanes_to_check (l : nat) : list nat := map fst (ongoing l false) ++ map fst (ongoing l true).

(** FindLaneSequencesHelper: 54-84.  Running out of fuel is [UB]. *)
Fixpoint seq_helper (fuel : nat) (start goal : nat) (visited : list nat) (maxl cur : Q) : outcome (list (list nat)) :=
  match fuel with
  | O => UB
  | S f =>
      if Qltb maxl cur then Ok []
      else (fix each (ls : list nat) : outcome (list (list nat)) :=
              match ls with
              | [] => Ok []
              | n :: ls' =>
                  obind (if lmem n visited then Ok []
                         else if Nat.eqb n goal then Ok [[start; goal]]
                         else omap (map (cons start)) (seq_helper f n goal (visited ++ [n]) maxl (cur + len n)%Q)) (fun here =>
                  omap (app here) (each ls'))
              end) (lanes_to_check start)
  end.
(** FindLaneSequences(start, end, max_length): 165-171. *)
Definition FindLaneSequences (start goal : nat) (maxl : Q) : outcome (list (list nat)) :=
  if Nat.eqb start goal then Ok [[start]] else seq_helper (S num_lanes) start goal [start] maxl 0.

(** BuildConnectionSet: 106-127: ends of the incoming and of the ongoing lane. *)
Definition connection_set (a b : nat) : outcome (bool * bool) :=
  match find (fun le => Nat.eqb (fst le) b) (ongoing a false) with
  | Some le => Ok (false, snd le)
  | None => match find (fun le => Nat.eqb (fst le) b) (ongoing a true) with
            | Some le => Ok (true, snd le)
            | None => Throw
            end
  end.
(** The loop of HasUTurn: 141-150. *)
Fixpoint uturn_loop (c : bool * bool) (a : nat) (rest : list nat) : outcome bool :=
  match rest with
  | [] => Ok false
  | b :: rest' => obind (connection_set a b) (fun n => if Bool.eqb (snd n) (fst c) then Ok true else uturn_loop n b rest')
  end.
(** HasUTurn: 133-152. *)
Definition HasUTurn (s : list nat) : outcome bool :=
  match s with
  | [] => Throw
  | a :: b :: c :: rest => obind (connection_set a b) (fun k => uturn_loop k b (c :: rest))
  | _ => Ok false
  end.
(** RemoveUTurns: 157-161. *)
Fixpoint RemoveUTurns (l : list (list nat)) : outcome (list (list nat)) :=
  match l with
  | [] => Ok []
  | s :: l' => obind (HasUTurn s) (fun u => omap (fun r => if u : bool then r else s :: r) (RemoveUTurns l'))
  end.
(** FindLaneSequences(start, end, max_length, no_u_turns): 173-178. *)
Definition FindLaneSequencesU (start goal : nat) (maxl : Q) (no_u_turns : bool) : outcome (list (list nat)) :=
  obind (FindLaneSequences start goal maxl) (fun l => if no_u_turns then RemoveUTurns l else Ok l).

(** LaneExistsInSet and DetermineEdgeS: derive_lane_s_routes.cc 45-65. *)
Definition in_set (s : list (nat * bool)) (l : nat) : bool := existsb (fun le => Nat.eqb (fst le) l) s.
Definition DetermineEdgeS (l n : nat) : option Q :=
  if in_set (ongoing l true) n then Some (len l)
  else if in_set (ongoing l false) n then Some 0%Q else None.
Definition edge_s (l n : nat) : outcome Q := match DetermineEdgeS l n with Some s => Ok s | None => Throw end.

(** The loop over a sequence: 91-111.  [prev] is the lane before; [None] at the front. *)
Fixpoint ranges_of (prev : option nat) (s : list nat) (ls : list nat) (start_s end_s : Q) (start goal : nat) : outcome (list lsrange) :=
  match ls with
  | [] => Ok []
  | l :: ls' =>
      let range a b := obind (SRange a b) (fun r => omap (cons (mk_lsrange l r)) (ranges_of (Some l) s ls' start_s end_s start goal)) in
      match prev, ls' with
      | None, n :: _ => throw_unless (Nat.eqb l start) (obind (edge_s l n) (fun b => range start_s b))
      | None, [] => UB
      | Some p, [] => throw_unless (Nat.eqb l goal) (obind (edge_s l p) (fun a => range a end_s))
      | Some p, n :: _ => obind (edge_s l p) (fun a => obind (edge_s l n) (fun b => range a b))
      end
  end.
(** One sequence: 77-112. *)
Definition route_of (s : list nat) (start goal : nat) (start_s end_s : Q) : outcome (list lsrange) :=
  match s with
  | [] => Throw
  | [_] => throw_unless (Nat.eqb start goal) (obind (SRange start_s end_s) (fun r => Ok [mk_lsrange start r]))
  | _ => ranges_of None s s start_s end_s start goal
  end.
Fixpoint routes_of (l : list (list nat)) (start goal : nat) (start_s end_s : Q) : outcome (list (list lsrange)) :=
  match l with
  | [] => Ok []
  | s :: l' => obind (route_of s start goal start_s end_s) (fun r => omap (cons r) (routes_of l' start goal start_s end_s))
  end.
(** DeriveLaneSRoutes: 67-115. *)
Definition DeriveLaneSRoutes (start : nat) (start_s : Q) (goal : nat) (end_s maxl : Q) : outcome (list (list lsrange)) :=
  obind (FindLaneSequences start goal maxl) (fun l => routes_of l start goal start_s end_s).
End Network.
