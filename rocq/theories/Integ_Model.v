(** The error-controlled Runge-Kutta integrator and the initial value problem built on it:
    src/maliput/drake/systems/analysis/{integrator_base.h, integrator_base.cc,
    runge_kutta3_integrator.cc, initial_value_problem.cc, scalar_initial_value_problem.h,
    antiderivative_function.h, dense_output.h, hermitian_dense_output.h} and
    src/maliput/drake/{arc_length_integrator.cc, inverse_arc_length_integrator.cc}.

    Doubles are real numbers; a NaN value, or vector holding a NaN, is [None].  Infinities other
    than the event times of [no_further] and the overflow of a norm are left out.  The state and
    parameter vectors are lists.  Loops that the code does not bound take a fuel argument: [More]
    means that the loop is still running.  The derivative function is a total function that does
    not throw and keeps the dimension of the state.  Fixed-step mode (never switched on by
    InitialValueProblem), the step counters and the other integrators are left out. *)
From Coq Require Import Reals List Bool.
Import ListNotations.
Local Open Scope R_scope.

Definition ltb (a b : R) : bool := if Rlt_dec a b then true else false.
Definition leb (a b : R) : bool := if Rle_dec a b then true else false.
Definition eqb (a b : R) : bool := if Req_EM_T a b then true else false.

(** The outcome of a call: a value, an exception, or a loop that has used up its fuel. *)
Inductive result (A : Type) := Ret (a : A) | Exc | More.
Arguments Ret {A} a.
Arguments Exc {A}.
Arguments More {A}.

Notation vec := (list R).

(** The ODE function dx/dt = f(t, x; k), initial_value_problem.h 44-60; [None] stands for a vector
    holding a NaN. *)
Definition ode := vec -> R -> vec -> option vec.

(** VectorBase::PlusEqScaled with one term, and ScaleAndAddToVector: x + a d. *)
Fixpoint axpy (a : R) (d x : vec) : vec :=
  match d, x with d0 :: ds, x0 :: xs => (x0 + a * d0) :: axpy a ds xs | _, _ => x end.

(** The derivative at a state that may itself hold a NaN: NaN in, NaN out. *)
Definition deriv (f : ode) (k : vec) (t : R) (x : option vec) : option vec :=
  match x with Some x => f k t x | None => None end.

(** RungeKutta3Integrator::DoStep, runge_kutta3_integrator.cc 44-144: the state at t + h and the
    error estimate. *)
Definition rk3 (f : ode) (k : vec) (t h : R) (x : vec) : option (vec * vec) :=
  match f k t x with None => None | Some d0 =>
  match f k (t + h / 2) (axpy (h / 2) d0 x) with None => None | Some da =>
  match f k (t + h) (axpy (2 * h) da (axpy (- h) d0 x)) with None => None | Some db =>
  let h6 := h / 6 in
  let x1 := axpy h6 db (axpy (4 * h6) da (axpy h6 d0 x)) in
  Some (x1, map Rabs (axpy (-1) x1 (axpy h da x)))
  end end end.

(** IntegratorBase::CalcStateChangeNorm, integrator_base.cc 138-195, for an OdeSystem: all of the
    state is miscellaneous and all weights are 1 (integrator_base.h 914). *)
Definition state_norm (e : vec) : R := fold_right Rmax 0 e.

(** A segment of the dense output: PiecewisePolynomial::CubicHermite over two breaks with the states
    and the derivatives at both (integrator_base.h 1470-1472).  The polynomials of such a trajectory
    are in Traj_Model. *)
Record seg := Seg { g_t0 : R; g_t1 : R; g_x0 : option vec; g_x1 : option vec; g_d0 : option vec; g_d1 : option vec }.

(** The settings of IntegratorBase, integrator_base.h 218-225, 645-652, 682-685, 783-786, 803. *)
Record settings := Settings {
  max_step : option R; req_min : R; req_initial : option R;
  target : option R; accuracy : option R; throws : bool }.

(** The integrator and its context: time, continuous state, numeric parameters, ideal next step size,
    initialization_done_, dense_output_ (the segments, oldest first) and the settings. *)
Record istate := IState {
  time : R; xc : option vec; param : vec; ideal : option R;
  initialized : bool; dense : option (list seg); sets : settings }.

Definition set_context (s : istate) (t : R) (x : option vec) : istate :=
  IState t x (param s) (ideal s) (initialized s) (dense s) (sets s).
Definition set_time (s : istate) (t : R) : istate := set_context s t (xc s).
Definition set_dense (s : istate) (d : option (list seg)) : istate :=
  IState (time s) (xc s) (param s) (ideal s) (initialized s) d (sets s).
Definition set_ideal (s : istate) (h : R) : istate :=
  IState (time s) (xc s) (param s) (Some h) (initialized s) (dense s) (sets s).

(** accuracy_in_use_; it is not NaN once the integrator is initialized. *)
Definition accuracy_in_use (s : istate) : R := match accuracy (sets s) with Some a => a | None => 0 end.

(** get_working_minimum_step_size, integrator_base.h 818-826. *)
Definition tol14 : R := / 10 ^ 14.
Definition working_min (s : istate) : R := Rmax (Rmax tol14 (Rabs (time s) * tol14)) (req_min (sets s)).

(** ValidateSmallerStepSize, integrator_base.h 1501-1514: [false] is the exception. *)
Definition validate_smaller (s : istate) (current new : R) : bool :=
  negb (ltb new (working_min s) && ltb new current && throws (sets s)).

(** min(x, max_step_size_): std::min returns its first argument when the second is NaN. *)
Definition cap (s : istate) (h : R) : R := match max_step (sets s) with Some m => Rmin h m | None => h end.

(** pow(x, 1.0 / 3) for x >= 0 (accuracies are not negative; pow is NaN for a negative x). *)
Definition pow3 (x : R) : R := if Rlt_dec 0 x then Rpower x (1 / 3) else 0.

(** CalcAdjustedStepSize, integrator_base.cc 197-295.  The result is the exception or (succeeded,
    next step size), and the new value of at_minimum_step_size. *)
Definition calc_adjusted (s : istate) (err : option R) (h : R) (at_min : bool) : option (bool * R) * bool :=
  match err with
  | None => (Some (false, 1 / 10 * h), at_min)
  | Some e =>
    let n0 := if eqb e 0 then 5 * h else 9 / 10 * h * pow3 (accuracy_in_use s / e) in
    let at1 := if ltb h n0 then false else at_min in
    let n1 := if ltb h n0 then (if ltb n0 (12 / 10 * h) then h else n0) else n0 in
    if ltb n1 h && at1 then (Some (true, h), at1) else
    let n2 := if ltb n1 h then (if leb e (accuracy_in_use s) then h else Rmin n1 (9 / 10 * h)) else n1 in
    let n3 := Rmax (Rmin n2 (5 * h)) (1 / 10 * h) in
    let n4 := cap s n3 in
    if validate_smaller s h n4 then
      let n5 := Rmax n4 (working_min s) in
      (Some (leb h n5, n5), if eqb n5 (working_min s) then true else at1)
    else (None, at1)
  end.

(** kEpsilonTime, piecewise_trajectory.h; the smallest length of a Hermite segment. *)
Definition eps_time : R := / 2 ^ 52.

(** PiecewisePolynomial::ConcatenateInTime with one more segment, piecewise_polynomial.cc 190-222
    (Traj_Model.concatenate); [None] is the exception. *)
Definition append_seg (d : list seg) (g : seg) : option (list seg) :=
  match last (map Some d) None with
  | None => Some [g]
  | Some g' =>
    let offset := g_t0 g - g_t1 g' in
    if ltb (Rabs offset) (Rmax (Rabs (g_t1 g')) 1 * eps_time)
    then Some (d ++ [Seg (g_t0 g - offset) (g_t1 g - offset) (g_x0 g) (g_x1 g) (g_d0 g) (g_d1 g)])
    else None
  end.

(** DoStep on the context: the error norm ([None] for NaN) and the new state. *)
Definition do_step (f : ode) (s : istate) (h : R) : option R * istate :=
  match xc s with
  | None => (None, set_context s (time s + h) None)
  | Some x =>
    match rk3 f (param s) (time s) h x with
    | None => (None, set_context s (time s + h) None)
    | Some (x1, e) => (Some (state_norm e), set_context s (time s + h) (Some x1))
    end
  end.

(** Step and DoDenseStep, integrator_base.h 1441-1474 and 1543-1548: the error norm or the exception
    of CubicHermite or ConcatenateInTime, which leaves the context at the end of the step. *)
Definition step (f : ode) (s : istate) (h : R) : result (option R) * istate :=
  let '(e, s1) := do_step f s h in
  match dense s with
  | None => (Ret e, s1)
  | Some d =>
    let d' := match last (map Some d) None with
              | Some g => if ltb (time s) (g_t1 g) && eqb (time s) (g_t0 g) then removelast d else d
              | None => d end in
    let g := Seg (time s) (time s1) (xc s) (xc s1) (deriv f (param s) (time s) (xc s)) (deriv f (param s) (time s1) (xc s1)) in
    if ltb (time s1 - time s) eps_time then (Exc, set_dense s1 (Some d')) else
    match append_seg d' g with
    | Some d'' => (Ret e, set_dense s1 (Some d''))
    | None => (Exc, set_dense s1 (Some d'))
    end
  end.

(** Undoing a step, integrator_base.cc 125-132: time and state are restored and the final segment of
    the dense output is removed. *)
Definition revert (s s1 : istate) : istate :=
  set_dense (set_context s1 (time s) (xc s)) (match dense s1 with Some d => Some (removelast d) | None => None end).

(** The step size to attempt, integrator_base.cc 49-69: whether it was artificially limited, and the
    size. *)
Definition attempt_size (s : istate) (h_max a : R) : bool * R :=
  let limited := ltb h_max (95 / 100 * a) in
  let a1 := if limited then h_max else if ltb h_max (1001 / 1000 * a) then h_max else a in
  (limited, cap s a1).

(** The loop of StepOnceErrorControlledAtMost, integrator_base.cc 42-135 (RK3 steps never fail, so
    the inner loop takes one step).  The value tells whether the step has the size asked for. *)
Fixpoint step_once (fuel : nat) (f : ode) (s : istate) (h_max a : R) (at_min : bool) : result bool * istate :=
  match fuel with
  | O => (More, s)
  | S n =>
    let '(limited, a2) := attempt_size s h_max a in
    match step f s a2 with
    | (Exc, s1) => (Exc, s1)
    | (More, s1) => (More, s1)
    | (Ret e, s1) =>
      match calc_adjusted s1 e a2 at_min with
      | (None, _) => (Exc, s1)
      | (Some (true, next), _) => (Ret (eqb a2 h_max), if limited then s1 else set_ideal s1 next)
      | (Some (false, next), at') => step_once n f (revert s s1) h_max next at'
      end
    end
  end.

(** The first step size to attempt, integrator_base.cc 26-32; [None] is the DEMAND. *)
Definition first_attempt (s : istate) : option R :=
  match ideal s with Some h => Some h | None => req_initial (sets s) end.

(** StepResult, integrator_base.h 130-155. *)
Inductive step_result := ReachedPublishTime | ReachedUpdateTime | TimeHasAdvanced | ReachedBoundaryTime.

(** Times that may be infinite ([None]). *)
Definition inf_lt (a b : option R) : bool :=
  match a, b with Some a, Some b => ltb a b | Some _, None => true | None, _ => false end.

(** The target of a step, integrator_base.cc 363-402: the event, its time ([None] when every event is
    at infinity and there is no maximum step). *)
Definition step_target (s : istate) (publish update boundary : option R) : step_result * option R :=
  let '(r, t) := if inf_lt publish update then (ReachedPublishTime, publish) else (ReachedUpdateTime, update) in
  let '(r, t) := if inf_lt boundary t then (ReachedBoundaryTime, boundary) else (r, t) in
  match xc s with Some [] => (r, t) | _ =>
  match max_step (sets s) with
  | None => (r, t)
  | Some m =>
    let late := match r with ReachedBoundaryTime => inf_lt (Some (time s + m)) t
                           | _ => inf_lt (Some (time s + m * (101 / 100))) t end in
    if late then (TimeHasAdvanced, Some (time s + m)) else (r, t)
  end end.

Definition in_past (s : istate) (t : option R) : bool := match t with Some t => ltb (t - time s) 0 | None => false end.

(** IntegrateNoFurtherThanTime, integrator_base.cc 297-440, in error-controlled mode.  Integrating to
    an infinite time is not modelled ([More]). *)
Definition no_further (fuel : nat) (f : ode) (s : istate) (publish update boundary : option R) : result step_result * istate :=
  if negb (initialized s) then (Exc, s) else
  if in_past s publish || in_past s update || in_past s boundary then (Exc, s) else
  match step_target s publish update boundary with
  | (_, None) => (More, s)
  | (r, Some t) =>
    match xc s with Some [] => (Ret r, set_time s t) | _ =>
    if ltb (t - time s) 0 then (Exc, s) else
    match first_attempt s with
    | None => (Exc, s)
    | Some a =>
      match step_once fuel f s (t - time s) a false with
      | (Ret full, s1) => if full || leb t (time s1) then (Ret r, set_time s1 t) else (Ret TimeHasAdvanced, s1)
      | (Exc, s1) => (Exc, s1)
      | (More, s1) => (More, s1)
      end
    end end
  end.

(** IntegrateWithMultipleStepsToTime, integrator_base.h 989-999. *)
Fixpoint to_time (fuel : nat) (f : ode) (s : istate) (tf : R) : result unit * istate :=
  match fuel with
  | O => (More, s)
  | S n =>
    let b := match max_step (sets s) with Some m => Rmin tf (time s + m) | None => tf end in
    match no_further n f s None None (Some b) with
    | (Ret _, s1) => if ltb (time s1) tf then to_time n f s1 tf else (Ret tt, s1)
    | (Exc, s1) => (Exc, s1)
    | (More, s1) => (More, s1)
    end
  end.

(** Initialize, integrator_base.h 882-928, with RungeKutta3Integrator::DoInitialize,
    runge_kutta3_integrator.cc 11-41: [None] is the exception.  Comparisons with NaN are false. *)
Definition optlt (a b : option R) : bool := match a, b with Some a, Some b => ltb a b | _, _ => false end.
Definition init_settings (c : settings) : option settings :=
  if optlt (max_step c) (Some (req_min c)) then None else
  if optlt (max_step c) (req_initial c) then None else
  if optlt (req_initial c) (Some (req_min c)) then None else
  match (match req_initial c with Some h => Some h
         | None => match max_step c with Some m => Some (m * (1 / 10)) | None => None end end) with
  | None => None
  | Some h0 =>
    let acc := match target c with
               | Some a => if ltb (1 / 10) a then 1 / 10 else a
               | None => 1 / 1000 end in
    Some (Settings (max_step c) (req_min c) (Some h0) (target c) (Some acc) (throws c))
  end.
Definition initialize (s : istate) : result unit * istate :=
  match init_settings (sets s) with
  | None => (Exc, s)
  | Some c => (Ret tt, IState (time s) (xc s) (param s) (ideal s) true (dense s) c)
  end.

(** OdeContext, initial_value_problem.h 76-110. *)
Record values := Values { v_t0 : option R; v_x0 : option vec; v_k : option vec }.
Definition no_values : values := Values None None None.

(** InitialValueProblem: default_values_ and current_values_ (both complete) and the integrator. *)
Record full := Full { f_t0 : R; f_x0 : vec; f_k : vec }.
Record ivp := Ivp { defaults : full; current : full; integ : istate }.

(** The constructor, initial_value_problem.cc 92-120; the values are given (96-104 throw otherwise). *)
Definition make_ivp (v : values) : option ivp :=
  match v with
  | Values (Some t0) (Some x0) (Some k) =>
    let v := Full t0 x0 k in
    Some (Ivp v v (IState t0 (Some x0) k None false None
            (Settings (Some (1 / 10)) 0 (Some (/ 10 ^ 4)) (Some (/ 10 ^ 4)) (Some (/ 10 ^ 4)) true)))
  | _ => None
  end.

(** SanitizeValuesOrThrow, initial_value_problem.cc 195-218. *)
Definition or_default {A} (o : option A) (d : A) : A := match o with Some a => a | None => d end.
Definition sanitize (p : ivp) (tf : R) (v : values) : option full :=
  let t0 := or_default (v_t0 v) (f_t0 (defaults p)) in
  let x0 := or_default (v_x0 v) (f_x0 (defaults p)) in
  let k := or_default (v_k v) (f_k (defaults p)) in
  if ltb tf t0 then None else
  if negb (Nat.eqb (length x0) (length (f_x0 (defaults p)))) then None else
  if negb (Nat.eqb (length k) (length (f_k (defaults p)))) then None else
  Some (Full t0 x0 k).

(** OdeContext::operator==, initial_value_problem.h 95-101. *)
Definition vec_dec (a b : vec) : {a = b} + {a <> b} := list_eq_dec Req_EM_T a b.
Definition same_values (a b : full) : bool :=
  eqb (f_t0 a) (f_t0 b) && (if vec_dec (f_x0 a) (f_x0 b) then true else false)
  && (if vec_dec (f_k a) (f_k b) then true else false).

(** ResetCachedState, initial_value_problem.cc 147-182, with Reset, integrator_base.h 833-865. *)
Definition reset_cached (p : ivp) (v : full) : ivp :=
  let c := sets (integ p) in
  Ivp (defaults p) v
    (IState (f_t0 v) (Some (f_x0 v)) (f_k v) None false None
       (Settings (max_step c) 0 (req_initial c) (target c) (target c) (throws c))).

Definition set_integ (p : ivp) (s : istate) : ivp := Ivp (defaults p) (current p) s.

(** Solve, initial_value_problem.cc 122-145. *)
Definition solve (fuel : nat) (f : ode) (p : ivp) (tf : R) (v : values) : result (option vec) * ivp :=
  match sanitize p tf v with
  | None => (Exc, p)
  | Some w =>
    let p1 := if negb (same_values w (current p)) || ltb tf (time (integ p)) then reset_cached p w else p in
    let '(r, s1) := if initialized (integ p1) then (Ret tt, integ p1) else initialize (integ p1) in
    match r with
    | Ret _ =>
      match to_time fuel f s1 tf with
      | (Ret _, s2) => (Ret (xc s2), set_integ p1 s2)
      | (Exc, s2) => (Exc, set_integ p1 s2)
      | (More, s2) => (More, set_integ p1 s2)
      end
    | Exc => (Exc, set_integ p1 s1)
    | More => (More, set_integ p1 s1)
    end
  end.

(** StartDenseIntegration, integrator_base.h 1211-1224; [false] is the exception. *)
Definition start_dense (s : istate) : result unit * istate :=
  if negb (initialized s) then (Exc, s) else
  match xc s with Some [] => (Exc, s) | _ =>
  match dense s with Some _ => (Exc, s) | None => (Ret tt, set_dense s (Some [])) end end.

(** DenseSolve, initial_value_problem.cc 220-245, with StopDenseIntegration, integrator_base.h
    1251-1256, and the HermitianDenseOutput constructor, which asks a trajectory without breaks for
    its start time (an exception). *)
Definition dense_solve (fuel : nat) (f : ode) (p : ivp) (tf : R) (v : values) : result (list seg) * ivp :=
  match sanitize p tf v with
  | None => (Exc, p)
  | Some w =>
    let p1 := reset_cached p w in
    match initialize (integ p1) with
    | (Ret _, s1) =>
      match start_dense s1 with
      | (Ret _, s2) =>
        match to_time fuel f s2 tf with
        | (Ret _, s3) =>
          match dense s3 with
          | None => (Exc, set_integ p1 s3)
          | Some [] => (Exc, set_integ p1 (set_dense s3 None))
          | Some d => (Ret d, set_integ p1 (set_dense s3 None))
          end
        | (Exc, s3) => (Exc, set_integ p1 s3)
        | (More, s3) => (More, set_integ p1 s3)
        end
      | (Exc, s2) => (Exc, set_integ p1 s2)
      | (More, s2) => (More, set_integ p1 s2)
      end
    | (Exc, s1) => (Exc, set_integ p1 s1)
    | (More, s1) => (More, set_integ p1 s1)
    end
  end.

(** start_time and end_time of a dense output, dense_output.h 101-113. *)
Definition out_start (d : list seg) : option R := match d with g :: _ => Some (g_t0 g) | [] => None end.
Definition out_end (d : list seg) : option R := match last (map Some d) None with Some g => Some (g_t1 g) | None => None end.

(** ComputeCubicSplineCoeffs, piecewise_polynomial.cc 1090-1105 (Traj_Model.cubic_coeffs), and the
    value of the cubic at a time after the start of the segment. *)
Definition hermite (dt y0 y1 yd0 yd1 u : R) : R :=
  let common := yd1 - yd0 - 2 / dt * (y1 - y0 - dt * yd0) in
  let c1 := 1 / (dt * dt) * common in
  let c2 := 1 / (dt * dt) * (y1 - y0 - dt * yd0 - dt * common) in
  y0 + u * (yd0 + u * (c2 + u * c1)).

Definition nth0 (i : nat) (x : vec) : R := nth i x 0.
Definition seg_value (i : nat) (g : seg) (t : R) : option R :=
  match g_x0 g, g_x1 g, g_d0 g, g_d1 g with
  | Some x0, Some x1, Some d0, Some d1 =>
    Some (hermite (g_t1 g - g_t0 g) (nth0 i x0) (nth0 i x1) (nth0 i d0) (nth0 i d1) (t - g_t0 g))
  | _, _, _, _ => None
  end.

(** PiecewiseTrajectory::get_segment_index, piecewise_trajectory.cc 60-87: the last segment that starts
    at or before t (or the first). *)
Fixpoint find_seg (g : seg) (d : list seg) (t : R) : seg :=
  match d with
  | [] => g
  | g' :: d' => if leb (g_t0 g') t then find_seg g' d' t else g
  end.

(** DenseOutput::EvaluateNth, dense_output.h 78-83 and 142-180, and HermitianDenseOutput::DoEvaluateNth;
    [None] inside is a NaN.  The dimension is checked by the caller. *)
Definition evaluate (d : list seg) (i : nat) (t : R) : result (option R) :=
  match d with
  | [] => Exc
  | g :: d' =>
    match out_end d with
    | Some e => if ltb t (g_t0 g) || ltb e t then Exc else Ret (seg_value i (find_seg g d' t) t)
    | None => Exc
    end
  end.

(** ScalarInitialValueProblem, scalar_initial_value_problem.h 86-105: the vector form of a scalar ODE. *)
Definition scalar_ode := vec -> R -> R -> option R.
Definition to_ode (g : scalar_ode) : ode := fun k t x => match g k t (nth0 0 x) with Some d => Some [d] | None => None end.
(** AntiderivativeFunction, antiderivative_function.h 86-109: the integrand does not use the state. *)
Definition integrand := vec -> R -> option R.
Definition to_scalar (g : integrand) : scalar_ode := fun k t _ => g k t.

(** IntegratorConfiguration, integrator_configuration.h. *)
Record config := Config { parameter_lower_bound : R; image_lower_bound : R; c_k : vec;
  initial_step_size_target : R; maximum_step_size : R; target_accuracy : R }.
Definition configure (p : ivp) (c : config) : ivp :=
  let s := integ p in
  set_integ p (IState (time s) (xc s) (param s) (ideal s) (initialized s) (dense s)
     (Settings (Some (maximum_step_size c)) (req_min (sets s)) (Some (initial_step_size_target c))
               (Some (target_accuracy c)) (Some (target_accuracy c)) (throws (sets s)))).

(** ArcLengthIntegrator: constructor, Evaluate; arc_length_integrator.cc 61-86. *)
Definition arc_length_integrator (c : config) : option ivp :=
  option_map (fun p => configure p c) (make_ivp (Values (Some (parameter_lower_bound c)) (Some [0]) (Some (c_k c)))).
(** InverseArcLengthIntegrator: constructor, inverse_arc_length_integrator.cc 64-79. *)
Definition inverse_arc_length_integrator (c : config) : option ivp :=
  option_map (fun p => configure p c) (make_ivp (Values (Some (image_lower_bound c)) (Some [parameter_lower_bound c]) (Some (c_k c)))).

(** Evaluate, arc_length_integrator.cc 81-86 and inverse_arc_length_integrator.cc 81-86. *)
Definition integrator_evaluate (fuel : nat) (g : scalar_ode) (p : ivp) (t : R) (k : vec) : result (option R) * ivp :=
  match solve fuel (to_ode g) p t (Values None None (Some k)) with
  | (Ret x, p1) => (Ret (option_map (nth0 0) x), p1)
  | (Exc, p1) => (Exc, p1)
  | (More, p1) => (More, p1)
  end.

(** The functors of IntegralFunction, arc_length_integrator.cc 88-107, and of InverseFunction,
    inverse_arc_length_integrator.cc 90-107 (saturate is in math/saturate.cc 37-42). *)
Record functor := Functor { u_dense : list seg; u_lo : R; u_hi : R; u_tol : R }.
Definition make_functor (fuel : nat) (g : scalar_ode) (p : ivp) (lo hi : R) (k : vec) (tolerance epsilon : R)
  : result functor * ivp :=
  match dense_solve fuel (to_ode g) p hi (Values None None (Some k)) with
  | (Ret d, p1) =>
    match out_start d, out_end d with
    | Some s, Some e => if leb s lo && leb (hi - epsilon) e then (Ret (Functor d lo hi tolerance), p1) else (Exc, p1)
    | _, _ => (Exc, p1)
    end
  | (Exc, p1) => (Exc, p1)
  | (More, p1) => (More, p1)
  end.
(** IntegralFunction has no epsilon. *)
Definition integral_function fuel g p p0 p1 k tolerance := make_functor fuel (to_scalar g) p p0 p1 k tolerance 0.
Definition inverse_function fuel g p s0 s1 k tolerance epsilon := make_functor fuel g p s0 s1 k tolerance epsilon.

Definition saturate (x lo hi : R) : result R :=
  if leb lo hi then Ret (if ltb x lo then lo else if ltb hi x then hi else x) else Exc.
Definition apply (u : functor) (t : R) : result (option R) :=
  match saturate t (u_lo u) (u_hi u) with
  | Ret t' => if ltb (Rabs (t' - t)) (u_tol u) then evaluate (u_dense u) 0 t' else Exc
  | Exc => Exc
  | More => More
  end.
