(** Models of src/maliput/utility/generate_string.cc, src/maliput/utility/generate_dot.cc and of the logger,
    src/maliput/common/logger.cc and include/maliput/common/logger.h. *)
From Coq Require Import String Ascii List Bool ZArith Arith.
From Verif Require Import Base.
Import ListNotations.
Local Open Scope string_scope.

(** "\n". *)
Definition nl : string := String "010" EmptyString.

(** ** generate_string.cc *)

(** What GenerateString asks a lane for: id().string(), the characters operator<< writes for length() and
    for the inertial positions at both ends, and the ids of the lanes beside it. *)
Record lane := mk_lane { l_id : string; l_length : string; l_min : string; l_max : string; l_left : option string; l_right : option string }.
Record segment := mk_segment { s_id : string; s_lanes : list lane }.
Record junction := mk_junction { j_id : string; j_segments : list segment }.
(** RoadGeometry::junction(i) may return a null pointer, the loop tests for it (generate_string.cc 85-87). *)
Record geometry := mk_geometry { g_id : string; g_junctions : list (option junction) }.

(** GenerateStringOptions, include/maliput/utility/generate_string.h. *)
Record options := mk_options {
  include_type_labels : bool; include_road_geometry_id : bool; include_junction_ids : bool;
  include_segment_ids : bool; include_lane_ids : bool; include_lane_details : bool }.

(** IndentLevels and ComputeIndentLevels, generate_string.cc 45-66. *)
Record indent_levels := mk_indent { i_junction : nat; i_segment : nat; i_lane : nat }.
Definition ComputeIndentLevels (o : options) : indent_levels :=
  let r := mk_indent 0 0 0 in
  let r := if include_segment_ids o then mk_indent (i_junction r) (i_segment r) (S (i_lane r)) else r in
  let r := if include_junction_ids o then mk_indent (i_junction r) (S (i_segment r)) (S (i_lane r)) else r in
  if include_road_geometry_id o then mk_indent (S (i_junction r)) (S (i_segment r)) (S (i_lane r)) else r.

(** std::string(n, ' '), and GetIndent, generate_string.cc 43 and 68. *)
Fixpoint blanks (n : nat) : string := match n with O => "" | S k => String " " (blanks k) end.
Definition GetIndent (indent : nat) : string := blanks (indent * 2).

(** The lines of one lane, generate_string.cc 107-125; [result] is what the stream holds. *)
Definition put_lane (o : options) (lane_prefix : string) (result : string) (l : lane) : string :=
  let result := result ++ lane_prefix in
  let result := if include_type_labels o then result ++ "lane: " else result in
  let result := result ++ l_id l ++ nl in
  if include_lane_details o then
    let result := result ++ lane_prefix ++ "  length: " ++ l_length l ++ nl in
    let result := result ++ lane_prefix ++ "  geo positions:" ++ nl in
    let result := result ++ lane_prefix ++ "    s_min: " ++ l_min l ++ nl in
    let result := result ++ lane_prefix ++ "    s_max: " ++ l_max l ++ nl in
    let result := result ++ lane_prefix ++ "  to left: " ++ (match l_left l with Some i => i | None => "" end) ++ nl in
    result ++ lane_prefix ++ "  to right: " ++ (match l_right l with Some i => i | None => "" end) ++ nl
  else result.
(** generate_string.cc 96-127. *)
Definition put_segment (o : options) (indent : indent_levels) (result : string) (s : segment) : string :=
  let result :=
    if include_segment_ids o then
      let result := result ++ GetIndent (i_segment indent) in
      let result := if include_type_labels o then result ++ "segment: " else result in
      result ++ s_id s ++ nl
    else result in
  if include_lane_ids o then fold_left (put_lane o (GetIndent (i_lane indent))) (s_lanes s) result else result.
(** generate_string.cc 83-128. *)
Definition put_junction (o : options) (indent : indent_levels) (result : string) (j : option junction) : string :=
  match j with
  | None => result
  | Some j =>
    let result :=
      if include_junction_ids o then
        let result := result ++ GetIndent (i_junction indent) in
        let result := if include_type_labels o then result ++ "junction: " else result in
        result ++ j_id j ++ nl
      else result in
    fold_left (put_segment o indent) (j_segments j) result
  end.
(** GenerateString, generate_string.cc 72-131. *)
Definition GenerateString (g : geometry) (o : options) : string :=
  let indent := ComputeIndentLevels o in
  let result := "" in
  let result :=
    if include_road_geometry_id o then
      let result := if include_type_labels o then result ++ "geometry: " else result in
      result ++ g_id g ++ nl
    else result in
  let s := fold_left (put_junction o indent) (g_junctions g) result in
  if Nat.ltb 0 (String.length s) then substring 0 (String.length s - 1) s else s.

(** ** generate_dot.cc *)

(** An edge: its segment (the pointer is a number, the id a text) and the ids of its nodes. *)
Record edge := mk_edge { e_segment : nat; e_label : string; e_a : string; e_b : string }.
(** GenerateDotStream without a route, generate_dot.cc 39-49.  [edges] are the values of Graph::edges in the
    order of iteration; a null stream throws; std::endl writes a line end. *)
Definition put_edge (os : string) (e : edge) : string :=
  os ++ e_a e ++ " -- " ++ e_b e ++ " [ label = """ ++ e_label e ++ """ ];" ++ nl.
Definition GenerateDotStream (edges : list edge) (os : option string) : outcome string :=
  match os with
  | None => Throw
  | Some os => Ok (fold_left put_edge edges (os ++ "graph {" ++ nl) ++ "}" ++ nl)
  end.
(** The segments of the route, generate_dot.cc 54-61.  A phase is given by the segments of its start
    positions; a phase always has one, front() of none would be undefined. *)
Fixpoint route_segments (edges : list edge) (phases : list (list nat)) (segments : list nat) : outcome (list nat) :=
  match phases with
  | [] => Ok segments
  | [] :: _ => UB
  | (s :: _) :: rest =>
    match find (fun e => Nat.eqb (e_segment e) s) edges with
    | None => Throw
    | Some _ => route_segments edges rest (s :: segments)
    end
  end.
(** generate_dot.cc 64-73. *)
Definition put_route_edge (segments : list nat) (os : string) (e : edge) : string :=
  let os := os ++ e_a e ++ " -- " ++ e_b e ++ " [ label = """ ++ e_label e ++ """" in
  let os := if existsb (Nat.eqb (e_segment e)) segments then os ++ " color = ""red""" else os in
  os ++ " ];" ++ nl.
(** GenerateDotStream with a route, generate_dot.cc 51-76: the result and what the stream then holds. *)
Definition GenerateDotStreamRoute (edges : list edge) (phases : list (list nat)) (os : option string) : outcome string :=
  match os with
  | None => Throw
  | Some os => obind (route_segments edges phases [])
                 (fun segments => Ok (fold_left (put_route_edge segments) edges (os ++ "graph {" ++ nl) ++ "}" ++ nl))
  end.

(** ** Logger *)

(** logger::level, logger.h 78-87: the enumerators are 0 to 7. *)
Inductive level := trace | debug | info | warn | error | critical | off | unchanged.
Definition level_number (l : level) : nat :=
  match l with trace => 0 | debug => 1 | info => 2 | warn => 3 | error => 4 | critical => 5 | off => 6 | unchanged => 7 end.
(** kStringToLevel, logger.h 90-94. *)
Definition kStringToLevel : list (string * level) :=
  [("off", off); ("trace", trace); ("debug", debug); ("info", info); ("warn", warn); ("error", error); ("critical", critical); ("unchanged", unchanged)].
(** kLevelToString, logger.h 97-101. *)
Definition kLevelToString (l : level) : string :=
  match l with off => "off" | trace => "trace" | debug => "debug" | info => "info" | warn => "warn" | error => "error" | critical => "critical" | unchanged => "unchanged" end.
(** kLevelToMessage, logger.h 104-107: at() throws for the others. *)
Definition kLevelToMessage (l : level) : outcome string :=
  match l with
  | trace => Ok "[TRACE] " | debug => Ok "[DEBUG] " | info => Ok "[INFO] " | warn => Ok "[WARNING] "
  | error => Ok "[ERROR] " | critical => Ok "[CRITICAL] " | off => Throw | unchanged => Throw
  end.
(** std::map::at on the first table. *)
Fixpoint level_at (t : list (string * level)) (s : string) : outcome level :=
  match t with
  | [] => Throw
  | (k, l) :: r => if String.eqb k s then Ok l else level_at r s
  end.
(** Logger: level_, the current sink (any number; the default Sink is 0) and, for each message, the sink it
    went to and the text passed to SinkBase::log, the latest last. *)
Record logger := mk_logger { level_ : level; sink_ : nat; sent : list (nat * string) }.
(** Logger(), logger.h 232-235. *)
Definition new_logger : logger := mk_logger info 0 [].
(** Logger::set_level, logger.cc 77-85. *)
Definition set_level (g : logger) (l : level) : string * logger :=
  match l with
  | unchanged => (kLevelToString (level_ g), g)
  | _ => (kLevelToString (level_ g), mk_logger l (sink_ g) (sent g))
  end.
(** Logger::set_sink, logger.cc 87-90. *)
Definition set_sink (g : logger) (s : option nat) : outcome unit * logger :=
  match s with
  | None => (Throw, g)
  | Some k => (Ok tt, mk_logger (level_ g) k (sent g))
  end.
(** set_log_level, logger.cc 92-94. *)
Definition set_log_level (g : logger) (s : string) : outcome string * logger :=
  match level_at kStringToLevel s with
  | Ok l => let '(p, g') := set_level g l in (Ok p, g')
  | Throw => (Throw, g)
  | UB => (UB, g)
  end.
(** Logger::format, logger.cc 101-107. *)
Definition format (v : list string) : string := fold_left append v "".
(** Logger::log, logger.h 257-267; [args] are the texts of the arguments. *)
Definition log (g : logger) (l : level) (args : list string) : outcome unit * logger :=
  if Nat.leb (level_number (level_ g)) (level_number l) then
    match kLevelToMessage l with
    | Ok m => (Ok tt, mk_logger (level_ g) (sink_ g) (sent g ++ [(sink_ g, append (append "" m) (append (format args) nl))])%list)
    | Throw => (Throw, g)
    | UB => (UB, g)
    end
  else (Ok tt, g).
(** Sink::log, logger.cc 96-99: what std::cout then holds; std::endl writes another line end. *)
Definition Sink_log (cout msg : string) : string := cout ++ msg ++ nl.
(** The public calls on the logger: trace() ... critical(), set_level, set_log_level and set_sink. *)
Inductive call := Log (l : level) (args : list string) | SetLevel (l : level) | SetLogLevel (s : string) | SetSink (s : option nat).
Definition do_call (g : logger) (c : call) : logger :=
  match c with
  | Log l args => snd (log g l args)
  | SetLevel l => snd (set_level g l)
  | SetLogLevel s => snd (set_log_level g s)
  | SetSink s => snd (set_sink g s)
  end.
