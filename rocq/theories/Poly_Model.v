(** Model of maliput::drake::Polynomial: src/maliput/drake/common/polynomial.{h,cc}.
    Simplified: T is an exact rational (no rounding); PowerType (int) is a natural number, so
    negative powers, which the class documentation excludes (polynomial.h 23-25), are not
    represented; VarType (unsigned int) is a number of type N, reduced modulo 2^32 where the code
    computes with it.  A failing MALIPUT_DRAKE_DEMAND (abort, drake_assert_and_throw.cc 36-56) is [Throw].
    Not modelled: the stream output operators and operator< (polynomial.h 355-360, 391-427). *)
From Coq Require Import List QArith Qabs NArith Bool Arith String Ascii DecimalString.
From Verif Require Import Base Maps.
Import ListNotations.

(** Term: polynomial.h 61-73. *)
Record term := Term { t_var : N; t_pow : nat }.
(** Monomial: polynomial.h 77-99. *)
Record mono := Mono { m_coef : Q; m_terms : list term }.
(** Polynomial: monomials_ and is_univariate_, polynomial.h 443-446. *)
Record poly := Poly { p_monos : list mono; p_univ : bool }.

(** std::pow(x, n). *)
Fixpoint qpow (x : Q) (n : nat) : Q := match n with O => 1 | S k => x * qpow x k end.

(** Term::operator==, polynomial.h 66. *)
Definition term_eqb (a b : term) : bool := N.eqb (t_var a) (t_var b) && Nat.eqb (t_pow a) (t_pow b).
Fixpoint terms_eqb (l l' : list term) : bool :=
  match l, l' with
  | [], [] => true
  | a :: r, b :: r' => term_eqb a b && terms_eqb r r'
  | _, _ => false
  end.
(** Monomial::operator==, polynomial.h 82-84. *)
Definition mono_eqb (a b : mono) : bool := Qeq_bool (m_coef a) (m_coef b) && terms_eqb (m_terms a) (m_terms b).

(** The first element satisfying [f], changed by [g]: the inner loops of polynomial.cc 63-69,
    364-370 and 623-631, which stop at the first match. *)
Fixpoint upd_first {A} (f : A -> bool) (g : A -> A) (l : list A) : option (list A) :=
  match l with
  | [] => None
  | x :: r => if f x then Some (g x :: r) else match upd_first f g r with Some r' => Some (x :: r') | None => None end
  end.

(** Monomial::HasSameExponents, polynomial.cc 24-32. *)
Definition HasSameExponents (this other : mono) : bool :=
  Nat.eqb (List.length (m_terms this)) (List.length (m_terms other)) &&
  forallb (fun t => existsb (fun u => term_eqb u t) (m_terms other)) (m_terms this).
(** Monomial::HasVariable, polynomial.cc 35-42. *)
Definition HasVariable (m : mono) (v : N) : bool := existsb (fun t => N.eqb (t_var t) v) (m_terms m).

(** Polynomial(), polynomial.h 102. *)
Definition poly_zero : poly := Poly [] true.
(** Polynomial(scalar), polynomial.cc 45-50. *)
Definition poly_const (c : Q) : poly := Poly [Mono c []] true.

(** terms[j].power += terms[i].power, polynomial.cc 65. *)
Definition add_power (k : nat) (u : term) : term := Term (t_var u) (t_pow u + k).
(** The merging loop of Polynomial(coefficient, terms), polynomial.cc 59-70.  [pre] is
    terms[0..i] reversed, [post] what is already behind it, [v0] the variable of terms[0]. *)
Fixpoint merge_terms (fuel : nat) (v0 : N) (pre post : list term) (univ : bool) : list term * bool :=
  match fuel, pre with
  | S n, t :: rest =>
      match rest with
      | [] => (t :: post, univ)
      | x :: r =>
          let univ' := univ && N.eqb (t_var t) v0 in
          match upd_first (fun u => N.eqb (t_var u) (t_var t)) (add_power (t_pow t)) (rev r) with
          | Some r' => merge_terms n v0 (x :: rev r') post univ'
          | None => merge_terms n v0 rest (t :: post) univ'
          end
      end
  | _, _ => (post, univ)
  end.
(** Polynomial(coefficient, terms), polynomial.cc 53-73. *)
Definition poly_terms (c : Q) (ts : list term) : poly :=
  let v0 := match ts with [] => 0%N | t :: _ => t_var t end in
  let (ts', univ) := merge_terms (List.length ts) v0 (rev ts) [] true in Poly [Mono c ts'] univ.

(** monomials_[j].coefficient += monomials_[i].coefficient, polynomial.cc 627. *)
Definition add_coef (c : Q) (m : mono) : mono := Mono (m_coef m + c) (m_terms m).
(** is_univariate_ and unique_var after looking at one monomial, polynomial.cc 613-622. *)
Definition look (m : mono) (uv : N) (univ : bool) : N * bool :=
  match m_terms m with
  | [] => (uv, univ)
  | t :: r =>
      let univ1 := match r with [] => univ | _ => false end in
      if N.eqb (t_var t) uv then (uv, univ1)
      else if N.ltb 0 uv then (uv, false) else (t_var t, univ1)
  end.
(** MakeMonomialsUnique, polynomial.cc 605-633.  [pre] is monomials_[0..i] reversed, [post] the
    monomials behind it. *)
Fixpoint mmu (fuel : nat) (pre post : list mono) (uv : N) (univ : bool) : list mono * bool :=
  match fuel, pre with
  | S n, m :: rest =>
      if Qeq_bool (m_coef m) 0 then mmu n rest post uv univ
      else
        let (uv', univ') := look m uv univ in
        match upd_first (HasSameExponents m) (add_coef (m_coef m)) (rev rest) with
        | Some r' => mmu n (rev r') post uv' univ'
        | None => mmu n rest (m :: post) uv' univ'
        end
  | _, _ => (post, univ)
  end.
Definition MakeMonomialsUnique (p : poly) : poly :=
  let (ms, u) := mmu (List.length (p_monos p)) (rev (p_monos p)) [] 0%N (p_univ p) in Poly ms u.

(** Polynomial(start, finish), polynomial.cc 76-82. *)
Definition poly_monos (ms : list mono) : poly := MakeMonomialsUnique (Poly ms true).
(** Polynomial(coeff, v), polynomial.cc 97-106. *)
Definition poly_var (c : Q) (v : N) : poly := Poly [Mono c [Term v 1]] true.

(** GetNumberOfCoefficients, polynomial.cc 109-111. *)
Definition GetNumberOfCoefficients (p : poly) : nat := List.length (p_monos p).
(** Monomial::GetDegree, polynomial.cc 114-119. *)
Definition MonoDegree (m : mono) : nat :=
  match m_terms m with [] => O | t :: r => fold_left (fun d u => (d * t_pow u)%nat) r (t_pow t) end.
(** Monomial::GetDegreeOf, polynomial.cc 122-129. *)
Definition GetDegreeOf (m : mono) (v : N) : nat :=
  match find (fun t => N.eqb (t_var t) v) (m_terms m) with Some t => t_pow t | None => O end.

(** The first loop of Monomial::Factor, polynomial.cc 136-147; None: a power is too small. *)
Fixpoint factor_terms (divisor : mono) (ts : list term) : option (list term) :=
  match ts with
  | [] => Some []
  | t :: r =>
      let d := GetDegreeOf divisor (t_var t) in
      if Nat.ltb (t_pow t) d then None
      else match factor_terms divisor r with
           | None => None
           | Some r' => Some (if Nat.ltb 0 (t_pow t - d) then Term (t_var t) (t_pow t - d) :: r' else r')
           end
  end.
(** Monomial::Factor, polynomial.cc 132-154. *)
Definition Factor (this divisor : mono) : mono :=
  match factor_terms divisor (m_terms this) with
  | None => Mono 0 []
  | Some ts =>
      if forallb (fun u => negb (Nat.eqb (GetDegreeOf this (t_var u)) 0)) (m_terms divisor)
      then Mono (m_coef this / m_coef divisor) ts else Mono 0 []
  end.

(** GetDegree, polynomial.cc 157-165. *)
Definition GetDegree (p : poly) : nat := fold_left (fun d m => if Nat.ltb d (MonoDegree m) then MonoDegree m else d) (p_monos p) O.
(** IsAffine, polynomial.cc 168-175. *)
Definition IsAffine (p : poly) : bool :=
  forallb (fun m => negb (Nat.ltb 1 (List.length (m_terms m)) || Nat.ltb 1 (MonoDegree m))) (p_monos p).
(** GetSimpleVariable, polynomial.cc 178-183. *)
Definition GetSimpleVariable (p : poly) : N :=
  match p_monos p with
  | [m] => match m_terms m with [t] => if Nat.eqb (t_pow t) 1 then t_var t else 0%N | _ => 0%N end
  | _ => 0%N
  end.

(** coefficients[k] = c; writing past the end of an Eigen vector has no meaning. *)
Fixpoint set_nth (l : list Q) (k : nat) (c : Q) : outcome (list Q) :=
  match l, k with
  | [], _ => UB
  | _ :: r, O => Ok (c :: r)
  | x :: r, S k' => omap (cons x) (set_nth r k' c)
  end.
(** The loop of GetCoefficients, polynomial.cc 197-202. *)
Fixpoint fill_coefficients (ms : list mono) (l : list Q) : outcome (list Q) :=
  match ms with
  | [] => Ok l
  | m :: r => obind (set_nth l (match m_terms m with [] => O | t :: _ => t_pow t end) (m_coef m)) (fill_coefficients r)
  end.
(** GetCoefficients, polynomial.cc 191-204. *)
Definition GetCoefficients (p : poly) : outcome (list Q) :=
  throw_unless (p_univ p) (fill_coefficients (p_monos p) (repeat 0 (GetDegree p + 1))).

(** std::set<VarType>::insert: the set as its increasing list. *)
Fixpoint set_insert (v : N) (l : list N) : list N :=
  match l with
  | [] => [v]
  | x :: r => if N.ltb v x then v :: l else if N.eqb v x then l else x :: set_insert v r
  end.
(** GetVariables, polynomial.cc 207-215. *)
Definition GetVariables (p : poly) : list N :=
  fold_left (fun s m => fold_left (fun s' t => set_insert (t_var t) s') (m_terms m) s) (p_monos p) [].

(** m.coefficient * degree * (degree-1) * ..., polynomial.h 214-216 and polynomial.cc 282-285. *)
Fixpoint fall (c : Q) (d k : nat) : Q * nat :=
  match k with O => (c, d) | S k' => fall (c * inject_Z (Z.of_nat d)) (d - 1) k' end.
(** The loop of EvaluateUnivariate, polynomial.h 210-224. *)
Definition eval_step (x : Q) (k : nat) (value : Q) (m : mono) : Q :=
  let degree := match m_terms m with [] => O | t :: _ => t_pow t end in
  if Nat.ltb degree k then value
  else let (c, d) := fall (m_coef m) degree k in
       if Nat.eqb d 0 then value + c else if Nat.eqb d 1 then value + c * x else value + c * qpow x d.
(** EvaluateUnivariate, polynomial.h 200-226. *)
Definition EvaluateUnivariate (p : poly) (x : Q) (k : nat) : outcome Q :=
  throw_unless (p_univ p) (Ok (fold_left (eval_step x k) (p_monos p) 0)).

(** monomial_value *= pow(var_values.at(term.var), term.power), polynomial.h 244-247. *)
Fixpoint eval_terms (vals : list (N * Q)) (v : Q) (ts : list term) : outcome Q :=
  match ts with
  | [] => Ok v
  | t :: r => match mfind N.eqb (t_var t) vals with None => Throw | Some x => eval_terms vals (v * qpow x (t_pow t)) r end
  end.
(** EvaluateMultivariate, polynomial.h 239-251. *)
Fixpoint eval_monos (vals : list (N * Q)) (v : Q) (ms : list mono) : outcome Q :=
  match ms with
  | [] => Ok v
  | m :: r => obind (eval_terms vals (m_coef m) (m_terms m)) (fun x => eval_monos vals (v + x) r)
  end.
Definition EvaluateMultivariate (p : poly) (vals : list (N * Q)) : outcome Q := eval_monos vals 0 (p_monos p).

(** One monomial of EvaluatePartial, polynomial.cc 222-231. *)
Definition partial_mono (vals : list (N * Q)) (m : mono) : mono :=
  let (c, ts) := fold_left (fun (acc : Q * list term) t =>
    match mfind N.eqb (t_var t) vals with
    | Some x => (fst acc * qpow x (t_pow t), snd acc)
    | None => (fst acc, snd acc ++ [t])
    end) (m_terms m) (m_coef m, []) in Mono c ts.
(** EvaluatePartial, polynomial.cc 218-235. *)
Definition EvaluatePartial (p : poly) (vals : list (N * Q)) : poly := poly_monos (map (partial_mono vals) (p_monos p)).

(** Subs, polynomial.cc 238-244. *)
Definition Subs (p : poly) (orig replacement : N) : poly :=
  Poly (map (fun m => Mono (m_coef m) (map (fun t => if N.eqb (t_var t) orig then Term replacement (t_pow t) else t) (m_terms m))) (p_monos p))
       (p_univ p).

(** operator+=(Polynomial), polynomial.cc 335-341; operator+, 435-439. *)
Definition padd (a b : poly) : poly := MakeMonomialsUnique (Poly (p_monos a ++ p_monos b) (p_univ a)).
(** operator-=(Polynomial), polynomial.cc 344-351; operator-, 442-446. *)
Definition psub (a b : poly) : poly :=
  MakeMonomialsUnique (Poly (p_monos a ++ map (fun m => Mono (m_coef m * -1) (m_terms m)) (p_monos b)) (p_univ a)).
(** One term multiplied in, polynomial.cc 362-374. *)
Definition mul_term (ts : list term) (u : term) : list term :=
  match upd_first (fun t => N.eqb (t_var t) (t_var u)) (add_power (t_pow u)) ts with
  | Some ts' => ts'
  | None => ts ++ [u]
  end.
(** polynomial.cc 359-375. *)
Definition mul_mono (a b : mono) : mono := Mono (m_coef a * m_coef b) (fold_left mul_term (m_terms b) (m_terms a)).
(** operator*=(Polynomial), polynomial.cc 354-382; operator*, 458-462. *)
Definition pmul (a b : poly) : poly :=
  MakeMonomialsUnique (Poly (flat_map (fun m => map (mul_mono m) (p_monos b)) (p_monos a)) (p_univ a)).
(** operator+=(scalar), polynomial.cc 385-399. *)
Definition is_constant (m : mono) : bool := match m_terms m with [] => true | _ => false end.
Definition padd_scalar (a : poly) (c : Q) : poly :=
  match upd_first is_constant (add_coef c) (p_monos a) with
  | Some ms => Poly ms (p_univ a)
  | None => Poly (p_monos a ++ [Mono c []]) (p_univ a)
  end.
(** operator-=(scalar), polynomial.cc 402-416. *)
Definition psub_scalar (a : poly) (c : Q) : poly :=
  match upd_first is_constant (fun m => Mono (m_coef m - c) (m_terms m)) (p_monos a) with
  | Some ms => Poly ms (p_univ a)
  | None => Poly (p_monos a ++ [Mono (- c) []]) (p_univ a)
  end.
(** operator*=(scalar), polynomial.cc 419-424; operator/=(scalar), 427-432; unary minus, 449-455. *)
Definition map_coef (f : Q -> Q) (a : poly) : poly := Poly (map (fun m => Mono (f (m_coef m)) (m_terms m)) (p_monos a)) (p_univ a).
Definition pmul_scalar (a : poly) (c : Q) : poly := map_coef (fun x => x * c) a.
Definition pdiv_scalar (a : poly) (c : Q) : poly := map_coef (fun x => x / c) a.
Definition popp (a : poly) : poly := map_coef Qopp a.
(** scalar - polynomial, polynomial.h 336-340. *)
Definition scalar_psub (c : Q) (a : poly) : poly := padd_scalar (popp a) c.

(** pow(base, exponent), polynomial.h 454-465; [fuel] at least the exponent's number of halvings. *)
Fixpoint ppow_fuel (fuel : nat) (base : poly) (e : nat) : poly :=
  match fuel with
  | O => poly_const 1
  | S f =>
      if Nat.eqb e 0 then poly_const 1
      else let half := ppow_fuel f base (Nat.div2 e) in
           if Nat.odd e then pmul (pmul base half) half else pmul half half
  end.
Definition ppow (base : poly) (e : nat) : poly := ppow_fuel (S e) base e.

(** Substitute, polynomial.cc 247-268: the inner loop 254-261 adds to p after every term. *)
Fixpoint subst_terms (orig : N) (replacement : poly) (ts : list term) (m p : poly) : poly :=
  match ts with
  | [] => p
  | t :: r =>
      let m' := if N.eqb (t_var t) orig then pmul m (ppow replacement (t_pow t)) else pmul m (poly_terms 1 [t]) in
      subst_terms orig replacement r m' (padd p m')
  end.
Definition Substitute (q : poly) (orig : N) (replacement : poly) : poly :=
  fold_left (fun p sm =>
    if HasVariable sm orig then subst_terms orig replacement (m_terms sm) (poly_const (m_coef sm)) p
    else padd p (poly_terms (m_coef sm) (m_terms sm))) (p_monos q) poly_zero.

(** One monomial of Derivative, polynomial.cc 280-288. *)
Definition derive_mono (k : nat) (m : mono) : list mono :=
  match m_terms m with
  | [] => []
  | t :: r => if Nat.leb k (t_pow t) then
      let (c, d) := fall (m_coef m) (t_pow t) k in
      [Mono c (if Nat.ltb d 1 then r else Term (t_var t) d :: r)] else []
  end.
(** Derivative, polynomial.cc 271-292. *)
Definition Derivative (p : poly) (k : nat) : outcome poly :=
  throw_unless (p_univ p) (if Nat.eqb k 0 then Ok p else Ok (Poly (flat_map (derive_mono k) (p_monos p)) true)).

(** The first variable found, polynomial.cc 302-308; 0 when there is none. *)
Definition first_var (ms : list mono) : N :=
  match find (fun m => negb (is_constant m)) ms with
  | Some m => match m_terms m with t :: _ => t_var t | [] => 0%N end
  | None => 0%N
  end.
(** The loop of Integral, polynomial.cc 299-316; the monomials already visited are in [done]. *)
Fixpoint integrate (done todo : list mono) : outcome (list mono) :=
  match todo with
  | [] => Ok done
  | m :: r =>
      match m_terms m with
      | [] => let v := first_var (done ++ m :: r) in
              throw_unless (negb (N.ltb v 1)) (integrate (done ++ [Mono (m_coef m) [Term v 1]]) r)
      | t :: ts => integrate (done ++ [Mono (m_coef m / inject_Z (Z.of_nat (t_pow t + 1))) (Term (t_var t) (t_pow t + 1) :: ts)]) r
      end
  end.
(** Integral, polynomial.cc 295-322. *)
Definition Integral (p : poly) (c : Q) : outcome poly :=
  throw_unless (p_univ p) (omap (fun ms => Poly (ms ++ [Mono c []]) true) (integrate [] (p_monos p))).

(** operator==, polynomial.cc 325-332: equality of the monomials as multisets. *)
Fixpoint remove_first {A} (f : A -> bool) (l : list A) : option (list A) :=
  match l with
  | [] => None
  | x :: r => if f x then Some r else match remove_first f r with Some r' => Some (x :: r') | None => None end
  end.
Fixpoint multiset_eqb (l l' : list mono) : bool :=
  match l with
  | [] => match l' with [] => true | _ => false end
  | m :: r => match remove_first (mono_eqb m) l' with Some r' => multiset_eqb r r' | None => false end
  end.
Definition poly_eqb (a b : poly) : bool := multiset_eqb (p_monos a) (p_monos b).

(** Roots, polynomial.cc 472-502, T = double: the real roots of polynomials of degree below two. *)
Definition Roots (p : poly) : outcome (list Q) :=
  throw_unless (p_univ p) (obind (GetCoefficients p) (fun c =>
    match c with
    | [_] => Ok []
    | [c0; c1] => Ok [- c0 / c1]
    | _ => Throw
    end)).

Inductive tolerance_type := kAbsolute | kRelative.
(** CoefficientsAlmostEqual, polynomial.cc 505-546: monomials_ with monomial_has_match. *)
Definition close (ty : tolerance_type) (tol a b : Q) : bool :=
  match ty with
  | kAbsolute => Qleb (Qabs (a - b)) tol
  | kRelative => Qleb (Qabs (a - b)) (tol * cmin (Qabs a) (Qabs b))
  end.
(** polynomial.cc 513-526: the first unmatched monomial with the same terms. *)
Fixpoint match_mono (ty : tolerance_type) (tol : Q) (m : mono) (l : list (mono * bool)) : option (bool * list (mono * bool)) :=
  match l with
  | [] => None
  | (x, b) :: r =>
      if negb b && terms_eqb (m_terms m) (m_terms x) then Some (close ty tol (m_coef m) (m_coef x), (x, true) :: r)
      else match match_mono ty tol m r with Some (c, r') => Some (c, (x, b) :: r') | None => None end
  end.
Fixpoint cmp_others (ty : tolerance_type) (tol : Q) (os : list mono) (l : list (mono * bool)) (acc : bool) : bool * list (mono * bool) * bool :=
  match os with
  | [] => (acc, l, true)
  | m :: r =>
      match match_mono ty tol m l with
      | Some (c, l') => cmp_others ty tol r l' (acc && c)
      | None => match ty with
                | kAbsolute => cmp_others ty tol r l (acc && Qleb (Qabs (m_coef m)) tol)
                | kRelative => (false, l, false)
                end
      end
  end.
Definition CoefficientsAlmostEqual (this other : poly) (tol : Q) (ty : tolerance_type) : bool :=
  let '(acc, l, go) := cmp_others ty tol (p_monos other) (map (fun m => (m, false)) (p_monos this)) true in
  if go then
    acc && forallb (fun mb => snd mb || match ty with kAbsolute => Qleb (Qabs (m_coef (fst mb))) tol | kRelative => false end) l
  else false.

(** kNameChars, kNumNameChars, kNameLength, kMaxNamePart: polynomial.cc 548-551. *)
Definition kNameChars : string := "@#_.abcdefghijklmnopqrstuvwxyz".
Definition kNumNameChars : N := 30.
Definition kMaxNamePart : N := 923521.
Definition two32 : N := 4294967296.
(** strchr(kNameChars, c) - kNameChars: the terminating NUL is found too. *)
Fixpoint strchr (s : string) (c : ascii) : option N :=
  match s with
  | EmptyString => if Ascii.eqb c zero then Some 0%N else None
  | String x r => if Ascii.eqb x c then Some 0%N else option_map N.succ (strchr r c)
  end.
(** IsValidVariableName, polynomial.cc 554-560. *)
Definition IsValidVariableName (name : string) : bool :=
  negb (Nat.eqb (String.length name) 0) &&
  forallb (fun c => match strchr kNameChars c with Some _ => true | None => false end) (list_ascii_of_string name).
(** The loop of VariableNameToId, polynomial.cc 565-573, from the last character; unsigned int
    arithmetic. *)
Fixpoint name_loop (rev_name : list ascii) (multiplier part : N) : N :=
  match rev_name with
  | [] => part
  | c :: r =>
      let offset := match strchr kNameChars c with Some o => o | None => 0%N end in
      name_loop r (N.modulo (multiplier * (kNumNameChars + 1)) two32) (N.modulo (part + N.modulo ((offset + 1) * multiplier) two32) two32)
  end.
(** VariableNameToId, polynomial.cc 563-581. *)
Definition VariableNameToId (name : string) (m : N) : outcome N :=
  throw_unless (IsValidVariableName name)
    (let part := name_loop (rev (list_ascii_of_string name)) 1 0 in
     throw_unless (N.leb part kMaxNamePart)
       (throw_unless (N.leb m (N.div (N.div (two32 - 1) 2) kMaxNamePart))
          (throw_unless (N.leb 1 m) (Ok (N.modulo (2 * N.modulo (part + N.modulo (kMaxNamePart * (m - 1)) two32) two32) two32))))).
(** The loop of IdToVariableName, polynomial.cc 594-598. *)
Fixpoint id_loop (k : nat) (part multiplier : N) : string :=
  match k with
  | O => EmptyString
  | S k' =>
      let ind := N.modulo (N.div part multiplier) (kNumNameChars + 1) in
      let rest := id_loop k' part (N.div multiplier (kNumNameChars + 1)) in
      if N.ltb 0 ind then match String.get (N.to_nat (ind - 1)) kNameChars with Some c => String c rest | None => rest end else rest
  end.
(** std::to_string of an unsigned int. *)
Definition to_string (n : N) : string := NilZero.string_of_uint (N.to_uint n).
(** IdToVariableName, polynomial.cc 584-602. *)
Definition IdToVariableName (id : N) : string :=
  let part := N.modulo (N.div id 2) kMaxNamePart in
  let m := N.div (N.div id 2) kMaxNamePart in
  let name := id_loop 4 part 29791 in
  append (match name with EmptyString => "@" | _ => name end) (to_string (m + 1)).

(** Polynomial(varname, num), polynomial.cc 85-94. *)
Definition poly_named (name : string) (num : N) : outcome poly := omap (poly_var 1) (VariableNameToId name num).
(** Polynomial(coefficients), polynomial.h 144-158; VariableNameToId("t") is 48 (proved below). *)
Definition var_t : N := 48.
Fixpoint coef_monos (v : N) (i : nat) (l : list Q) : list mono :=
  match l with
  | [] => []
  | c :: r => Mono c (match i with O => [] | _ => [Term v i] end) :: coef_monos v (S i) r
  end.
Definition poly_coefs (l : list Q) : poly := Poly (coef_monos var_t 0 l) true.
