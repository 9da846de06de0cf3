(** Model of src/maliput/utility/segment_analysis.cc.
    Segments and lanes are natural numbers (object addresses).  Simplification:
    [std::unordered_set] is a list used through membership, insertion only
    happens after a failed lookup, so the list has no duplicates. *)
From Coq Require Import List Arith Bool.
From Verif Require Import Base.
Import ListNotations.

(** The read-only interface of a road geometry used by the two functions:
    [Segment::lane(i)] for i < num_lanes (a null pointer is [None]),
    [Lane::GetConfluentBranches(end)] as the lanes of the returned set ([false] =
    kStart, [true] = kFinish, null set is [None]), [Lane::segment()], and
    [Junction::segment(j)] of [RoadGeometry::junction(i)] (null junction [None]). *)
Record geometry := mk_geometry {
  g_lanes : nat -> list (option nat);
  g_confluent : nat -> bool -> option (list nat);
  g_segment : nat -> option nat;
  g_junctions : list (option (list nat)) }.

Definition mem (x : nat) (l : list nat) : bool := existsb (Nat.eqb x) l.

(** Lines 68-79: the loop over one confluent set. *)
Fixpoint scan_set (g : geometry) (ls : list nat) (st : list nat * list nat) : list nat * list nat :=
  match ls with
  | [] => st
  | l :: ls' =>
      match g_segment g l with
      | None => scan_set g ls' st
      | Some s =>
          if mem s (snd st) then scan_set g ls' st
          else scan_set g ls' (fst st ++ [s], s :: snd st)
      end
  end.

(** Lines 61-67: the two ends of a lane. *)
Definition scan_end (g : geometry) (l : nat) (e : bool) (st : list nat * list nat) : list nat * list nat :=
  match g_confluent g l e with
  | None => st
  | Some ls => scan_set g ls st
  end.

(** Lines 55-81: the lanes of the working segment. *)
Fixpoint scan_lanes (g : geometry) (ls : list (option nat)) (st : list nat * list nat) : list nat * list nat :=
  match ls with
  | [] => st
  | None :: ls' => scan_lanes g ls' st
  | Some l :: ls' => scan_lanes g ls' (scan_end g l true (scan_end g l false st))
  end.

(** Lines 50-82: the work queue loop.  State: (queue, visited).  Running out of
    fuel is [UB]; the theorems show it does not happen. *)
Fixpoint work (g : geometry) (fuel : nat) (st : list nat * list nat) : outcome (list nat) :=
  match fst st with
  | [] => Ok (snd st)
  | s :: q =>
      match fuel with
      | O => UB
      | S f => work g f (scan_lanes g (g_lanes g s) (q, snd st))
      end
  end.

(** FindConfluentSegments: lines 39-86.  [fuel] bounds the number of pops. *)
Definition FindConfluentSegments (g : geometry) (fuel : nat) (seed : nat) : outcome (list nat) :=
  work g fuel ([seed], []).

(** AnalyzeConfluentSegments: lines 88-110; lines 96-106 for one junction. *)
Fixpoint analyze_junction (g : geometry) (fuel : nat) (segs : list nat)
  (st : list (list nat) * list nat) : outcome (list (list nat) * list nat) :=
  match segs with
  | [] => Ok st
  | s :: segs' =>
      if mem s (snd st) then analyze_junction g fuel segs' st
      else obind (FindConfluentSegments g fuel s) (fun c =>
             analyze_junction g fuel segs' (fst st ++ [c], c ++ snd st))
  end.

Fixpoint analyze_junctions (g : geometry) (fuel : nat) (js : list (option (list nat)))
  (st : list (list nat) * list nat) : outcome (list (list nat) * list nat) :=
  match js with
  | [] => Ok st
  | None :: js' => analyze_junctions g fuel js' st
  | Some segs :: js' => obind (analyze_junction g fuel segs st) (analyze_junctions g fuel js')
  end.

Definition AnalyzeConfluentSegments (g : geometry) (fuel : nat) : outcome (list (list nat)) :=
  omap fst (analyze_junctions g fuel (g_junctions g) ([], [])).
