(** Model of drake's piecewise polynomial trajectories:
    src/maliput/drake/common/trajectories/{trajectory.cc, piecewise_trajectory.{h,cc}, piecewise_polynomial.{h,cc}}.
    Times and values are exact rationals (no rounding, no infinities: the constructor of a
    constant over [-inf, inf], piecewise_polynomial.h 92-97, is left out).  MALIPUT_DRAKE_DEMAND
    is [Throw].  Eigen's dimension checks are assertions: a mismatch is [UB]. *)
From Coq Require Import List QArith Qabs ZArith NArith Bool Arith.
From Verif Require Import Base Poly_Model.
Import ListNotations.

(** MatrixX<T>: dimensions and entries.  Entries outside of the dimensions are not meaningful. *)
Record mat (A : Type) := Mat { m_rows : nat; m_cols : nat; m_at : nat -> nat -> A }.
Arguments Mat {A}. Arguments m_rows {A}. Arguments m_cols {A}. Arguments m_at {A}.

(** breaks_ (piecewise_trajectory.h 73) and polynomials_ (piecewise_polynomial.h 765-766). *)
Record traj := Traj { breaks : list Q; polys : list (mat poly) }.

(** kEpsilonTime: piecewise_trajectory.h 26; numeric_limits<double>::epsilon(). *)
Definition kEpsilonTime : Q := 1 # 4503599627370496.

Definition brk (p : traj) (i : nat) : Q := nth i (breaks p) 0.

(** A loop over rows and columns that fills a matrix; the first failing entry ends it. *)
Fixpoint run_all {A} (l : list (nat * nat)) (f : nat -> nat -> outcome A) : outcome unit :=
  match l with [] => Ok tt | ij :: r => obind (f (fst ij) (snd ij)) (fun _ => run_all r f) end.
Definition each {A} (d : A) (r c : nat) (f : nat -> nat -> outcome A) : outcome (mat A) :=
  omap (fun _ => Mat r c (fun i j => match f i j with Ok x => x | _ => d end)) (run_all (list_prod (seq 0 r) (seq 0 c)) f).
Fixpoint mapM {A B} (f : A -> outcome B) (l : list A) : outcome (list B) :=
  match l with [] => Ok [] | a :: r => obind (f a) (fun b => omap (cons b) (mapM f r)) end.

(** PiecewiseTrajectory(breaks), piecewise_trajectory.cc 15-20. *)
Fixpoint breaks_valid (l : list Q) : bool :=
  match l with a :: ((b :: _) as r) => Qleb kEpsilonTime (b - a) && breaks_valid r | _ => true end.
(** get_number_of_segments, piecewise_trajectory.cc 27-30. *)
Definition segments (p : traj) : nat := (List.length (breaks p) - 1)%nat.
(** segment_number_range_check, piecewise_trajectory.cc 94-102. *)
Definition range_check {A} (p : traj) (i : Z) (k : outcome A) : outcome A :=
  throw_unless ((0 <=? i)%Z && (i <? Z.of_nat (segments p))%Z) k.
(** start_time(i), end_time(i), duration(i): piecewise_trajectory.cc 32-47. *)
Definition start_time_of (p : traj) (i : Z) : outcome Q := range_check p i (Ok (brk p (Z.to_nat i))).
Definition end_time_of (p : traj) (i : Z) : outcome Q := range_check p i (Ok (brk p (S (Z.to_nat i)))).
Definition duration (p : traj) (i : Z) : outcome Q :=
  obind (end_time_of p i) (fun e => omap (fun s => e - s) (start_time_of p i)).
(** start_time(), end_time(): piecewise_trajectory.cc 49-57. *)
Definition start_time (p : traj) : outcome Q := start_time_of p 0.
Definition end_time (p : traj) : outcome Q := end_time_of p (Z.of_nat (segments p) - 1).
(** is_time_in_range, piecewise_trajectory.cc 22-25. *)
Definition is_time_in_range (p : traj) (t : Q) : outcome bool :=
  obind (start_time p) (fun s => if Qleb s t then omap (fun e => Qleb t e) (end_time p) else Ok false).

(** GetSegmentIndexRecursive, piecewise_trajectory.cc 59-77.  The fuel stands for the C++
    stack; it does not run out (proved). *)
Fixpoint segment_search (fuel : nat) (l : list Q) (time : Q) (start last : nat) : outcome nat :=
  match fuel with
  | O => UB
  | S f =>
    throw_unless (Nat.leb start last && Nat.ltb last (List.length l) && (Qleb time (nth last l 0) && Qleb (nth start l 0) time))
     (let mid := Nat.div2 (start + last) in
      if Nat.leb (last - start) 1 then Ok start
      else if Qltb time (nth mid l 0) then segment_search f l time start mid
      else if Qltb (nth mid l 0) time then segment_search f l time mid last
      else Ok mid)
  end.
(** get_segment_index, piecewise_trajectory.cc 79-87. *)
Definition get_segment_index (p : traj) (t : Q) : outcome nat :=
  match breaks p with
  | [] => Ok 0%nat
  | _ => obind (start_time p) (fun s => obind (end_time p) (fun e =>
           segment_search (List.length (breaks p)) (breaks p) (cmin (cmax t s) e) 0 (List.length (breaks p) - 1)))
  end.
(** SegmentTimesEqual, piecewise_trajectory.cc 119-127. *)
Fixpoint times_equal (a b : list Q) (tol : Q) : bool :=
  match a, b with
  | [], [] => true
  | x :: a', y :: b' => negb (Qltb tol (Qabs (x - y))) && times_equal a' b' tol
  | _, _ => false
  end.
Definition SegmentTimesEqual (p q : traj) (tol : Q) : bool := times_equal (breaks p) (breaks q) tol.

(** rows(), cols(): piecewise_polynomial.cc 427-443. *)
Definition rows (p : traj) : outcome nat := match polys p with m :: _ => Ok (m_rows m) | [] => Throw end.
Definition cols (p : traj) : outcome nat := match polys p with m :: _ => Ok (m_cols m) | [] => Throw end.
Definition empty (p : traj) : bool := match polys p with [] => true | _ => false end.

Definition same_dims {A B} (a : mat A) (b : mat B) : bool := Nat.eqb (m_rows a) (m_rows b) && Nat.eqb (m_cols a) (m_cols b).

(** PiecewisePolynomial(polynomials, breaks), piecewise_polynomial.cc 22-36.  Numbers of
    polynomials and breaks that do not fit are only asserted (a disarmed assertion), and then
    polynomials[i] is read out of range: [UB]. *)
Definition make (ps : list (mat poly)) (bs : list Q) : outcome traj :=
  throw_unless (breaks_valid bs)
   (if Nat.eqb (List.length bs) (List.length ps + 1) then
      throw_unless (match ps with m :: r => forallb (same_dims m) r | [] => true end) (Ok (Traj bs ps))
    else UB).
(** PiecewisePolynomial(scalar polynomials, breaks), piecewise_polynomial.cc 38-48. *)
Definition scalar_mat {A} (x : A) : mat A := Mat 1 1 (fun _ _ => x).
Definition make_scalar (ps : list poly) (bs : list Q) : outcome traj := make (map scalar_mat ps) bs.

(** polynomials_[i]. *)
Definition seg (p : traj) (i : nat) : outcome (mat poly) := match nth_error (polys p) i with Some m => Ok m | None => UB end.
(** EvaluateSegmentAbsoluteTime, piecewise_polynomial.cc 420-425. *)
Definition eval_segment (p : traj) (i : nat) (t : Q) (r c k : nat) : outcome Q :=
  obind (seg p i) (fun m => obind (start_time_of p (Z.of_nat i)) (fun s => EvaluateUnivariate (m_at m r c) (t - s) k)).
(** DoEvalDerivative, piecewise_polynomial.cc 105-116; EvalDerivative, trajectory.cc 37-40;
    value, piecewise_polynomial.h 505-508. *)
Definition EvalDerivative (p : traj) (t : Q) (k : nat) : outcome (mat Q) :=
  obind (get_segment_index p t) (fun i => obind (start_time p) (fun s => obind (end_time p) (fun e =>
  obind (rows p) (fun r => obind (cols p) (fun c => each 0 r c (fun a b => eval_segment p i (cmin (cmax t s) e) a b k)))))).
Definition tvalue (p : traj) (t : Q) : outcome (mat Q) := EvalDerivative p t 0.
(** scalarValue, piecewise_polynomial.cc 99-103. *)
Definition scalarValue (p : traj) (t : Q) (r c : nat) : outcome Q :=
  obind (get_segment_index p t) (fun i => eval_segment p i t r c 0).
(** vector_values, trajectory.cc 8-25. *)
Definition vector_values (p : traj) (ts : list Q) : outcome (mat Q) :=
  obind (cols p) (fun c => obind (rows p) (fun r =>
  throw_unless (Nat.eqb c 1 || Nat.eqb r 1)
   (omap (fun vs => if Nat.eqb c 1
                    then Mat r (List.length ts) (fun i j => match nth_error vs j with Some m => m_at m i 0%nat | None => 0 end)
                    else Mat (List.length ts) c (fun i j => match nth_error vs i with Some m => m_at m 0%nat j | None => 0 end))
         (mapM (tvalue p) ts)))).
(** getPolynomial, getSegmentPolynomialDegree: piecewise_polynomial.cc 124-135. *)
Definition getPolynomial (p : traj) (i : Z) (r c : nat) : outcome poly :=
  range_check p i (omap (fun m => m_at m r c) (seg p (Z.to_nat i))).
Definition getSegmentPolynomialDegree (p : traj) (i : Z) (r c : nat) : outcome nat := omap GetDegree (getPolynomial p i r c).

(** Loops over all entries of all segments that replace them. *)
Definition map_entries (p : traj) (f : poly -> outcome poly) : outcome traj :=
  omap (Traj (breaks p)) (mapM (fun m => obind (rows p) (fun r => obind (cols p) (fun c => each poly_zero r c (fun i j => f (m_at m i j))))) (polys p)).
(** derivative, piecewise_polynomial.cc 55-71. *)
Definition derivative (p : traj) (k : nat) : outcome traj :=
  if Nat.eqb k 0 then Ok p else map_entries p (fun q => Derivative q k).
(** integral, piecewise_polynomial.cc 73-97.  [prev] is the integrated segment before. *)
Fixpoint integrate_from (p : traj) (r c : nat) (i : nat) (prev : option (mat poly)) (v : mat Q) (l : list (mat poly)) : outcome (list (mat poly)) :=
  match l with
  | [] => Ok []
  | m :: rest =>
    obind (each poly_zero r c (fun a b =>
      match prev with
      | None => Integral (m_at m a b) (m_at v a b)
      | Some q => obind (start_time_of p (Z.of_nat i)) (fun s => obind (start_time_of p (Z.of_nat i - 1)) (fun s0 =>
                  obind (EvaluateUnivariate (m_at q a b) (s - s0) 0) (Integral (m_at m a b))))
      end))
     (fun m' => omap (cons m') (integrate_from p r c (S i) (Some m') v rest))
  end.
Definition integral (p : traj) (v : mat Q) : outcome traj :=
  match polys p with
  | [] => Ok p
  | _ => obind (rows p) (fun r => obind (cols p) (fun c => omap (Traj (breaks p)) (integrate_from p r c 0 None v (polys p))))
  end.
(** integral with one value for every entry, piecewise_polynomial.cc 73-77 (rows() throws when empty). *)
Definition integral_scalar (p : traj) (x : Q) : outcome traj :=
  obind (rows p) (fun r => obind (cols p) (fun c => integral p (Mat r c (fun _ _ => x)))).

(** Entry by entry and segment by segment. *)
Fixpoint zipM {A B C} (f : A -> B -> outcome C) (a : list A) (b : list B) : outcome (list C) :=
  match a, b with
  | [], _ => Ok []
  | x :: a', y :: b' => obind (f x y) (fun z => omap (cons z) (zipM f a' b'))
  | _ :: _, [] => UB
  end.
Definition entrywise (op : poly -> poly -> poly) (a b : mat poly) : outcome (mat poly) :=
  if same_dims a b then Ok (Mat (m_rows a) (m_cols a) (fun i j => op (m_at a i j) (m_at b i j))) else UB.
(** operator+=, operator-= with a trajectory: piecewise_polynomial.cc 137-151. *)
Definition tadd (p q : traj) : outcome traj :=
  throw_unless (SegmentTimesEqual p q kEpsilonTime) (omap (Traj (breaks p)) (zipM (entrywise padd) (polys p) (polys q))).
Definition tsub (p q : traj) : outcome traj :=
  throw_unless (SegmentTimesEqual p q kEpsilonTime) (omap (Traj (breaks p)) (zipM (entrywise psub) (polys p) (polys q))).
(** Eigen's product of matrices: sums over the inner dimension. *)
Fixpoint psum (l : list poly) : poly := match l with [] => poly_const 0 | [a] => a | a :: r => padd a (psum r) end.
Definition mat_mul (a b : mat poly) : outcome (mat poly) :=
  if Nat.eqb (m_cols a) (m_rows b)
  then Ok (Mat (m_rows a) (m_cols b) (fun i j => psum (map (fun k => pmul (m_at a i k) (m_at b k j)) (seq 0 (m_cols a)))))
  else UB.
(** operator*= with a trajectory: piecewise_polynomial.cc 153-161; [polynomials_[i] *= ...] of Eigen matrices. *)
Definition tmul (p q : traj) : outcome traj :=
  throw_unless (SegmentTimesEqual p q kEpsilonTime) (omap (Traj (breaks p)) (zipM mat_mul (polys p) (polys q))).
(** operator+=, -= with a matrix of numbers: piecewise_polynomial.cc 163-173. *)
Definition offset_mat (op : poly -> poly -> poly) (v : mat Q) (m : mat poly) : outcome (mat poly) :=
  if same_dims m v then Ok (Mat (m_rows m) (m_cols m) (fun i j => op (m_at m i j) (poly_const (m_at v i j)))) else UB.
Definition tadd_mat (p : traj) (v : mat Q) : outcome traj := omap (Traj (breaks p)) (mapM (offset_mat padd v) (polys p)).
Definition tsub_mat (p : traj) (v : mat Q) : outcome traj := omap (Traj (breaks p)) (mapM (offset_mat psub v) (polys p)).
(** unary minus: piecewise_polynomial.cc 189-196. *)
Definition topp (p : traj) : traj := Traj (breaks p) (map (fun m => Mat (m_rows m) (m_cols m) (fun i j => popp (m_at m i j))) (polys p)).

(** isApprox, piecewise_polynomial.cc 219-238. *)
Definition isApprox (p q : traj) (tol : Q) (ty : tolerance_type) : outcome bool :=
  obind (rows p) (fun r => obind (rows q) (fun r' => if negb (Nat.eqb r r') then Ok false else
  obind (cols p) (fun c => obind (cols q) (fun c' => if negb (Nat.eqb c c') then Ok false else
  if negb (SegmentTimesEqual p q tol) then Ok false else
  Ok (forallb (fun mm => forallb (fun ij => CoefficientsAlmostEqual (m_at (fst mm) (fst ij) (snd ij)) (m_at (snd mm) (fst ij) (snd ij)) tol ty)
                                 (list_prod (seq 0 r) (seq 0 c))) (combine (polys p) (polys q))))))).

(** ConcatenateInTime, piecewise_polynomial.cc 240-266. *)
Definition concatenate (p q : traj) : outcome traj :=
  if empty p then Ok q else
  obind (rows p) (fun r => obind (rows q) (fun r' => throw_unless (Nat.eqb r r') (
  obind (cols p) (fun c => obind (cols q) (fun c' => throw_unless (Nat.eqb c c') (
  obind (start_time q) (fun s => obind (end_time p) (fun e =>
  let offset := s - e in
  throw_unless (Qltb (Qabs offset) (cmax (Qabs e) 1 * kEpsilonTime))
   (Ok (Traj (removelast (breaks p) ++ map (fun b => b - offset) (breaks q)) (polys p ++ polys q))))))))))).

(** ComputeCubicSplineCoeffs, piecewise_polynomial.cc 1090-1105: the coefficients of 1, t, t^2, t^3. *)
Definition cubic_coeffs (dt y0 y1 yd0 yd1 : Q) : outcome (list Q) :=
  throw_unless (Qleb kEpsilonTime dt)
   (let dt2 := dt * dt in
    let c4 := y0 in
    let c3 := yd0 in
    let common := yd1 - c3 - 2 / dt * (y1 - c4 - dt * c3) in
    let c1 := 1 / dt2 * common in
    let c2 := 1 / dt2 * (y1 - c4 - dt * c3 - dt * common) in
    Ok [c4; c3; c2; c1]).

(** AppendCubicHermiteSegment, piecewise_polynomial.cc 268-294. *)
Definition append_cubic (p : traj) (time : Q) (y yd : mat Q) : outcome traj :=
  throw_unless (negb (empty p)) (
  obind (end_time p) (fun e => throw_unless (Qltb e time) (
  obind (rows p) (fun r => obind (cols p) (fun c =>
  throw_unless (Nat.eqb (m_rows y) r && Nat.eqb (m_cols y) c && (Nat.eqb (m_rows yd) r && Nat.eqb (m_cols yd) c)) (
  omap (fun m => Traj (breaks p ++ [time]) (polys p ++ [m]))
   (each poly_zero r c (fun i j =>
      obind (eval_segment p (List.length (polys p) - 1) e i j 0) (fun s =>
      obind (eval_segment p (List.length (polys p) - 1) e i j 1) (fun sd =>
      omap poly_coefs (cubic_coeffs (time - e) s (m_at y i j) sd (m_at yd i j)))))))))))).
(** AppendFirstOrderSegment, piecewise_polynomial.cc 296-316. *)
Definition append_linear (p : traj) (time : Q) (y : mat Q) : outcome traj :=
  throw_unless (negb (empty p)) (
  obind (end_time p) (fun e => throw_unless (Qltb e time) (
  obind (rows p) (fun r => obind (cols p) (fun c =>
  throw_unless (Nat.eqb (m_rows y) r && Nat.eqb (m_cols y) c) (
  omap (fun m => Traj (breaks p ++ [time]) (polys p ++ [m]))
   (each poly_zero r c (fun i j =>
      omap (fun s => poly_coefs [s; (m_at y i j - s) / (time - e)]) (eval_segment p (List.length (polys p) - 1) e i j 0))))))))).
(** RemoveFinalSegment, piecewise_polynomial.cc 318-323. *)
Definition remove_final (p : traj) : outcome traj :=
  throw_unless (negb (empty p)) (Ok (Traj (removelast (breaks p)) (removelast (polys p)))).

(** One entry in ReverseTime, piecewise_polynomial.cc 330-349: h - Polynomial(1, t) for t. *)
Definition reverse_entry (h : Q) (q : poly) : outcome poly :=
  if Nat.eqb (GetDegree q) 0 then Ok q
  else match GetVariables q with
       | t :: _ => Ok (Substitute q t (scalar_psub h (poly_var 1 t)))
       | [] => UB
       end.
Fixpoint reverse_segments (r c : nat) (bs : list Q) (l : list (mat poly)) : outcome (list (mat poly)) :=
  match l, bs with
  | [], _ => Ok []
  | m :: rest, b0 :: ((b1 :: _) as bs') =>
    obind (each poly_zero r c (fun i j => reverse_entry (b1 - b0) (m_at m i j))) (fun m' => omap (cons m') (reverse_segments r c bs' rest))
  | _, _ => UB
  end.
(** ReverseTime, piecewise_polynomial.cc 325-358. *)
Definition ReverseTime (p : traj) : outcome traj :=
  match polys p with
  | [] => Ok (Traj (map (fun b => b * -(1)) (rev (breaks p))) [])
  | _ => obind (rows p) (fun r => obind (cols p) (fun c =>
         omap (fun l => Traj (map (fun b => b * -(1)) (rev (breaks p))) (rev l)) (reverse_segments r c (breaks p) (polys p))))
  end.
(** ScaleTime, piecewise_polynomial.cc 360-386: coefficient i is divided by scale^i. *)
Fixpoint scale_coeffs (scale : Q) (i : nat) (l : list Q) : list Q :=
  match l with [] => [] | c :: r => (match i with O => c | _ => c / qpow scale i end) :: scale_coeffs scale (S i) r end.
Definition scale_entry (scale : Q) (q : poly) : outcome poly :=
  if Nat.eqb (GetDegree q) 0 then Ok q else omap (fun l => poly_coefs (scale_coeffs scale 0 l)) (GetCoefficients q).
Definition ScaleTime (p : traj) (scale : Q) : outcome traj :=
  throw_unless (Qltb 0 scale) (omap (fun q => Traj (map (fun b => b * scale) (breaks q)) (polys q)) (map_entries p (scale_entry scale))).
(** shiftRight, piecewise_polynomial.cc 388-394. *)
Definition shiftRight (p : traj) (offset : Q) : traj := Traj (map (fun b => b + offset) (breaks p)) (polys p).

(** setPolynomialMatrixBlock, piecewise_polynomial.cc 396-402. *)
Fixpoint set_seg (l : list (mat poly)) (i : nat) (m : mat poly) : list (mat poly) :=
  match l, i with [], _ => [] | _ :: r, O => m :: r | a :: r, S k => a :: set_seg r k m end.
Definition setPolynomialMatrixBlock (p : traj) (new : mat poly) (i : Z) (r0 c0 : nat) : outcome traj :=
  range_check p i (obind (seg p (Z.to_nat i)) (fun m =>
    if Nat.leb (r0 + m_rows new) (m_rows m) && Nat.leb (c0 + m_cols new) (m_cols m)
    then Ok (Traj (breaks p) (set_seg (polys p) (Z.to_nat i)
           (Mat (m_rows m) (m_cols m) (fun a b =>
              if Nat.leb r0 a && Nat.ltb a (r0 + m_rows new) && (Nat.leb c0 b && Nat.ltb b (c0 + m_cols new))
              then m_at new (a - r0) (b - c0) else m_at m a b))))
    else UB)).
(** slice, piecewise_polynomial.cc 404-418.  A negative num_segments lets iterators cross: [UB]. *)
Definition slice (p : traj) (i n : Z) : outcome traj :=
  range_check p i (range_check p (i + n - 1)
   (if (n <? 0)%Z then UB
    else make (firstn (Z.to_nat n) (skipn (Z.to_nat i) (polys p))) (firstn (S (Z.to_nat n)) (skipn (Z.to_nat i) (breaks p))))).
(** Reshape, piecewise_polynomial.cc 445-453.  Eigen stores columns one after another. *)
Definition Reshape (p : traj) (r c : nat) : outcome traj :=
  obind (rows p) (fun r0 => obind (cols p) (fun c0 => throw_unless (Nat.eqb (r * c) (r0 * c0))
   (Ok (Traj (breaks p) (map (fun m => Mat r c (fun i j => m_at m ((i + j * r) mod m_rows m) ((i + j * r) / m_rows m))) (polys p)))))).
(** Block, piecewise_polynomial.cc 455-470. *)
Definition Block (p : traj) (r0 c0 br bc : nat) : outcome traj :=
  obind (rows p) (fun r => throw_unless (Nat.ltb r0 r) (obind (cols p) (fun c => throw_unless (Nat.ltb c0 c && (Nat.leb (r0 + br) r && Nat.leb (c0 + bc) c))
   (make (map (fun m => Mat br bc (fun i j => m_at m (r0 + i) (c0 + j))) (polys p)) (breaks p))))).

(** CheckSplineGenerationInputValidityOrThrow, piecewise_polynomial.cc 472-512. *)
Fixpoint times_valid (l : list Q) : bool :=
  match l with a :: ((b :: _) as r) => Qltb a b && Qleb kEpsilonTime (b - a) && times_valid r | _ => true end.
Definition check_input {A} (bs : list Q) (ys : list (mat Q)) (min_length : nat) (k : outcome A) : outcome A :=
  throw_unless (Nat.eqb (List.length bs) (List.length ys)) (throw_unless (Nat.leb min_length (List.length bs))
   (match ys with
    | [] => UB
    | y :: _ => throw_unless (Nat.leb 1 (m_rows y) && Nat.leb 1 (m_cols y))
                 (throw_unless (forallb (same_dims y) ys) (throw_unless (times_valid bs) k))
    end)).
Definition sample (ys : list (mat Q)) (i : nat) : mat Q := nth i ys (Mat 0 0 (fun _ _ => 0)).

(** ZeroOrderHold, piecewise_polynomial.cc 514-538. *)
Definition ZeroOrderHold (bs : list Q) (ys : list (mat Q)) : outcome traj :=
  check_input bs ys 2
   (make (map (fun i => Mat (m_rows (sample ys 0)) (m_cols (sample ys 0)) (fun j k => poly_coefs [m_at (sample ys i) j k])) (seq 0 (List.length bs - 1))) bs).
(** FirstOrderHold, piecewise_polynomial.cc 540-562. *)
Definition FirstOrderHold (bs : list Q) (ys : list (mat Q)) : outcome traj :=
  check_input bs ys 2
   (make (map (fun i => Mat (m_rows (sample ys 0)) (m_cols (sample ys 0)) (fun j k =>
       poly_coefs [m_at (sample ys i) j k; (m_at (sample ys (S i)) j k - m_at (sample ys i) j k) / (nth (S i) bs 0 - nth i bs 0)]))
     (seq 0 (List.length bs - 1))) bs).

(** The segment loop of CubicHermite and CubicShapePreserving: from values and slopes of the entries. *)
Definition hermite_segments (bs : list Q) (r c : nat) (y yd : nat -> nat -> nat -> Q) : outcome (list (mat poly)) :=
  mapM (fun t => each poly_zero r c (fun i j => omap poly_coefs (cubic_coeffs (nth (S t) bs 0 - nth t bs 0) (y t i j) (y (S t) i j) (yd t i j) (yd (S t) i j))))
       (seq 0 (List.length bs - 1)).
(** CubicHermite, piecewise_polynomial.cc 679-719. *)
Definition CubicHermite (bs : list Q) (ys yds : list (mat Q)) : outcome traj :=
  check_input bs ys 2
   (throw_unless (Nat.eqb (List.length bs) (List.length yds)) (throw_unless (forallb (same_dims (sample ys 0)) yds)
     (obind (hermite_segments bs (m_rows (sample ys 0)) (m_cols (sample ys 0)) (fun t => m_at (sample ys t)) (fun t => m_at (sample yds t)))
            (fun ps => make ps bs)))).

(** sign(val, tol), piecewise_polynomial.cc 564-571. *)
Definition sign (v tol : Q) : Z := if Qltb v (- tol) then (-1)%Z else if Qltb tol v then 1%Z else 0%Z.
(** ComputePchipEndSlope, piecewise_polynomial.cc 581-596, for one entry; kSlopeEpsilon = 1e-10. *)
Definition kSlopeEpsilon : Q := 1 # 10000000000.
Definition end_slope (dt0 dt1 slope0 slope1 : Q) : Q :=
  let deriv := ((2 * dt0 + dt1) * slope0 - dt0 * slope1) / (dt0 + dt1) in
  if negb (sign deriv kSlopeEpsilon =? sign slope0 kSlopeEpsilon)%Z then 0
  else if negb (sign slope0 kSlopeEpsilon =? sign slope1 kSlopeEpsilon)%Z && Qltb (Qabs (3 * slope0)) (Qabs deriv) then 3 * slope0
  else deriv.
(** The slope at an inner sample, piecewise_polynomial.cc 652-663. *)
Definition inner_slope (dt0 dt1 slope0 slope1 : Q) : Q :=
  if Qleb (slope0 * slope1) 0 then 0
  else let common := dt0 + dt1 in 3 * common / ((common + dt1) / slope0 + (common + dt0) / slope1).
(** The slopes at all samples of one entry, piecewise_polynomial.cc 626-668. *)
Definition pchip_slope (bs : list Q) (zero_ends : bool) (y : nat -> Q) (t : nat) : Q :=
  let n := List.length bs in
  let dt i := nth (S i) bs 0 - nth i bs 0 in
  let sl i := (y (S i) - y i) / dt i in
  if Nat.eqb t 0 then (if zero_ends then 0 else end_slope (dt 0%nat) (dt 1%nat) (sl 0%nat) (sl 1%nat))
  else if Nat.eqb t (n - 1) then (if zero_ends then 0 else end_slope (dt (n - 2)%nat) (dt (n - 3)%nat) (sl (n - 2)%nat) (sl (n - 3)%nat))
  else inner_slope (dt (t - 1)%nat) (dt t) (sl (t - 1)%nat) (sl t).
(** CubicShapePreserving, piecewise_polynomial.cc 608-677. *)
Definition CubicShapePreserving (bs : list Q) (ys : list (mat Q)) (zero_ends : bool) : outcome traj :=
  check_input bs ys (if zero_ends then 2 else 3)
   (obind (hermite_segments bs (m_rows (sample ys 0)) (m_cols (sample ys 0)) (fun t => m_at (sample ys t))
             (fun t i j => pchip_slope bs zero_ends (fun s => m_at (sample ys s) i j) t))
          (fun ps => make ps bs)).

(** A sparse linear system: triplets (row, column, coefficient) and the right hand side by row. *)
Definition triplet := (nat * nat * Q)%type.
Definition trip (r c : nat) (v : Q) : triplet := (r, c, v).
Record system := System { s_rows : nat; s_trips : list triplet; s_rhs : list (nat * Q) }.
(** SetupCubicSplineInteriorCoeffsLinearSystem, piecewise_polynomial.cc 721-772; the count of rows
    is the row index returned.  The DEMAND on it (770) always holds (proved). *)
Definition add_segment_rows (bs : list Q) (y : nat -> Q) (st : system) (i : nat) : system :=
  let n := List.length bs in
  let dt := nth (S i) bs 0 - nth i bs 0 in
  let r := s_rows st in
  let st1 := System (S r) (s_trips st ++ [trip (r) (3 * i) (dt); trip (r) (3 * i + 1) (dt * dt); trip (r) (3 * i + 2) (dt * dt * dt)]) (s_rhs st ++ [(r, y (S i) - y i)]) in
  if Nat.eqb i (n - 2) then st1
  else let r1 := S r in let r2 := S r1 in
       System (S r2) (s_trips st1 ++ [trip (r1) (3 * i) (1); trip (r1) (3 * i + 1) (2 * dt); trip (r1) (3 * i + 2) (3 * dt * dt); trip (r1) (3 * (i + 1)) ((-(1)));
                                      trip (r2) (3 * i + 1) (2); trip (r2) (3 * i + 2) (6 * dt); trip (r2) (3 * (i + 1) + 1) ((-(2)))]) (s_rhs st1).
Definition interior_system (bs : list Q) (y : nat -> Q) : system :=
  fold_left (add_segment_rows bs y) (seq 0 (List.length bs - 1)) (System 0 [] []).
(** End velocities, piecewise_polynomial.cc 826-834. *)
Definition clamped_system (bs : list Q) (y : nat -> Q) (ds de : Q) : system :=
  let st := interior_system bs y in
  let n := List.length bs in let r := s_rows st in
  let dt := nth (n - 1) bs 0 - nth (n - 2) bs 0 in
  System (r + 2) (s_trips st ++ [trip (r) (0) (1); trip (S r) (3 * (n - 2)) (1); trip (S r) (3 * (n - 2) + 1) (2 * dt); trip (S r) (3 * (n - 2) + 2) (3 * dt * dt)])
         (s_rhs st ++ [(r, ds); (S r, de)]).
(** Periodic and not-a-sample end conditions, piecewise_polynomial.cc 898-940. *)
Definition free_system (bs : list Q) (y : nat -> Q) (periodic : bool) : system :=
  let st := interior_system bs y in
  let n := List.length bs in let r := s_rows st in
  let dt := nth (n - 1) bs 0 - nth (n - 2) bs 0 in
  System (r + 2) (s_trips st ++
    (if periodic then [trip (r) (0) ((-(1))); trip (r) (3 * (n - 2)) (1); trip (r) (3 * (n - 2) + 1) (2 * dt); trip (r) (3 * (n - 2) + 2) (3 * dt * dt);
                       trip (S r) (1) ((-(2))); trip (S r) (3 * (n - 2) + 1) (2); trip (S r) (3 * (n - 2) + 2) (6 * dt)]
     else if Nat.ltb 3 n then [trip (r) (2) (1); trip (r) (3 + 2) ((-(1))); trip (S r) (3 * (n - 3) + 2) (1); trip (S r) (3 * (n - 2) + 2) ((-(1)))]
     else [trip (r) (2) (1); trip (S r) (3 + 2) (1)]))
   (s_rhs st ++ [(r, 0%Q); (S r, 0%Q)]).
(** Polynomials from a solution, piecewise_polynomial.cc 843-847 and 952-956. *)
Definition solved_segments (bs : list Q) (r c : nat) (y : nat -> nat -> nat -> Q) (x : nat -> nat -> nat -> Q) : list (mat poly) :=
  map (fun i => Mat r c (fun j k => poly_coefs [y i j k; x j k (3 * i)%nat; x j k (3 * i + 1)%nat; x j k (3 * i + 2)%nat])) (seq 0 (List.length bs - 1)).
(** CubicWithContinuousSecondDerivatives, piecewise_polynomial.cc 774-851 and 853-960.  [solve] is
    Eigen's SparseLU: it returns some vector; b is cleared once and the same rows are set for
    every entry, so it is written here as cleared for each. *)
Definition CubicClamped (solve : system -> nat -> Q) (bs : list Q) (ys : list (mat Q)) (ds de : mat Q) : outcome traj :=
  check_input bs ys 2 (throw_unless (same_dims (sample ys 0) ds) (throw_unless (same_dims (sample ys 0) de)
   (make (solved_segments bs (m_rows (sample ys 0)) (m_cols (sample ys 0)) (fun i => m_at (sample ys i))
            (fun j k => solve (clamped_system bs (fun i => m_at (sample ys i) j k) (m_at ds j k) (m_at de j k)))) bs))).
Definition CubicFree (solve : system -> nat -> Q) (bs : list Q) (ys : list (mat Q)) (periodic : bool) : outcome traj :=
  check_input bs ys 3
   (make (solved_segments bs (m_rows (sample ys 0)) (m_cols (sample ys 0)) (fun i => m_at (sample ys i))
            (fun j k => solve (free_system bs (fun i => m_at (sample ys i) j k) periodic))) bs).

(** LagrangeInterpolatingPolynomial, piecewise_polynomial.cc 963-1014.  [solve A b] is Eigen's
    ColPivHouseholderQR: it returns some vector as long as b. *)
Fixpoint vandermonde_row (n : nat) (a x : Q) : list Q := match n with O => [] | S k => a :: vandermonde_row k (a * x) x end.
Fixpoint lagrange_times (l : list Q) : bool :=
  match l with a :: ((b :: _) as r) => Qltb kEpsilonTime (b - a) && lagrange_times r | _ => true end.
Definition Lagrange (solve : list (list Q) -> list Q -> list Q) (ts : list Q) (ys : list (mat Q)) : outcome traj :=
  throw_unless (Nat.ltb 1 (List.length ts)) (throw_unless (Nat.eqb (List.length ys) (List.length ts))
   (throw_unless (lagrange_times ts && forallb (same_dims (sample ys 0)) ys)
     (let A := map (fun t => vandermonde_row (List.length ts) 1 (t - nth 0 ts 0)) ts in
      make [Mat (m_rows (sample ys 0)) (m_cols (sample ys 0)) (fun i j => poly_coefs (solve A (map (fun y => m_at y i j) ys)))]
           [nth 0 ts 0; nth (List.length ts - 1) ts 0]))).
