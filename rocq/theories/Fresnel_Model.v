(** The Fresnel integrals: src/maliput/math/fresnel.cc.

    Doubles are real numbers and the literals are the decimals that are written; NaN and infinite
    arguments are left out.  [None] is a read past the end of a coefficient table, or the loop of
    [polevl] and [p1evl] entered with a count of zero. *)
From Coq Require Import Reals QArith Qreals List.
Import ListNotations.
Local Open Scope R_scope.

(** The do-while loops of polevl and p1evl, fresnel.cc 91-93 and 103-105: [i] more coefficients. *)
Fixpoint horner (x : R) (p : list R) (i : nat) (ans : R) : option R :=
  match i, p with
  | O, _ => Some ans
  | S i', c :: p' => horner x p' i' (ans * x + c)
  | S _, [] => None
  end.

(** polevl, fresnel.cc 86-96. *)
Definition polevl (x : R) (coef : list R) (n : nat) : option R :=
  match coef, n with
  | c :: p, S _ => horner x p n c
  | _, _ => None
  end.

(** p1evl, fresnel.cc 98-108. *)
Definition p1evl (x : R) (coef : list R) (n : nat) : option R :=
  match coef, n with
  | c :: p, S (S _) => horner x p (n - 1) (x + c)
  | _, _ => None
  end.

(** The coefficient tables, fresnel.cc 111-156. *)
Definition kSn : list Q := [
  -2.99181919401019853726E3; 7.08840045257738576863E5;   -6.29741486205862506537E7;
  2.54890880573376359104E9;  -4.42979518059697779103E10; 3.18016297876567817986E11]%Q.
Definition kSd : list Q := [
  2.81376268889994315696E2; 4.55847810806532581675E4;  5.17343888770096400730E6;
  4.19320245898111231129E8; 2.24411795645340920940E10; 6.07366389490084639049E11]%Q.
Definition kCn : list Q := [
  -4.98843114573573548651E-8; 9.50428062829859605134E-6;  -6.45191435683965050962E-4;
  1.88843319396703850064E-2;  -2.05525900955013891793E-1; 9.99999999999999998822E-1]%Q.
Definition kCd : list Q := [
  3.99982968972495980367E-12; 9.15439215774657478799E-10; 1.25001862479598821474E-7; 1.22262789024179030997E-5;
  8.68029542941784300606E-4;  4.12142090722199792936E-2;  1.00000000000000000118E0]%Q.
Definition kFn : list Q := [
  4.21543555043677546506E-1;  1.43407919780758885261E-1;  1.15220955073585758835E-2;  3.45017939782574027900E-4;
  4.63613749287867322088E-6;  3.05568983790257605827E-8;  1.02304514164907233465E-10; 1.72010743268161828879E-13;
  1.34283276233062758925E-16; 3.76329711269987889006E-20]%Q.
Definition kFd : list Q := [
  7.51586398353378947175E-1;  1.16888925859191382142E-1;  6.44051526508858611005E-3;  1.55934409164153020873E-4;
  1.84627567348930545870E-6;  1.12699224763999035261E-8;  3.60140029589371370404E-11; 5.88754533621578410010E-14;
  4.52001434074129701496E-17; 1.25443237090011264384E-20]%Q.
Definition kGn : list Q := [
  5.04442073643383265887E-1;  1.97102833525523411709E-1;  1.87648584092575249293E-2;  6.84079380915393090172E-4;
  1.15138826111884280931E-5;  9.82852443688422223854E-8;  4.45344415861750144738E-10; 1.08268041139020870318E-12;
  1.37555460633261799868E-15; 8.36354435630677421531E-19; 1.86958710162783235106E-22]%Q.
Definition kGd : list Q := [
  1.47495759925128324529E0;   3.37748989120019970451E-1;  2.53603741420338795122E-2;  8.14679107184306179049E-4;
  1.27545075667729118702E-5;  1.04314589657571990585E-7;  4.60680728146520428211E-10; 1.10273215066240270757E-12;
  1.38796531259578871258E-15; 8.39158816283118707363E-19; 1.86958710162783236342E-22]%Q.
Definition reals (l : list Q) : list R := map Q2R l.

(** impl_small_x, fresnel.cc 162-166: the sine and the cosine integral. *)
Definition impl_small_x (x : R) : option (R * R) :=
  let x2 := x * x in
  let t := x2 * x2 in
  match polevl t (reals kSn) 5, p1evl t (reals kSd) 6, polevl t (reals kCn) 5, polevl t (reals kCd) 6 with
  | Some sn, Some sd, Some cn, Some cd => Some (x * x2 * sn / sd, x * cn / cd)
  | _, _, _, _ => None
  end.

(** impl_medium_x, fresnel.cc 168-182. *)
Definition impl_medium_x (x : R) : option (R * R) :=
  let x2 := x * x in
  let t := PI * x2 in
  let u := 1 / (t * t) in
  let t_inv := 1 / t in
  match polevl u (reals kFn) 9, p1evl u (reals kFd) 10, polevl u (reals kGn) 10, p1evl u (reals kGd) 11 with
  | Some fn, Some fd, Some gn, Some gd =>
    let f_u := 1 - u * fn / fd in
    let g_u := t_inv * gn / gd in
    let c_t := cos (PI * (1 / 2) * x2) in
    let s_t := sin (PI * (1 / 2) * x2) in
    let t := PI * x in
    Some (1 / 2 - (f_u * c_t + g_u * s_t) / t, 1 / 2 + (f_u * s_t - g_u * c_t) / t)
  | _, _, _, _ => None
  end.

(** fresnel, fresnel.cc 110-200: the sine and the cosine integral. *)
Definition fresnel (xxa : R) : option (R * R) :=
  let x := Rabs xxa in
  let r := if Rlt_dec (x * x) (25625 / 10000) then impl_small_x x
           else if Rlt_dec 36974 x then Some (1 / 2, 1 / 2)
           else impl_medium_x x in
  match r with
  | Some (s, c) => if Rlt_dec xxa 0 then Some (- s, - c) else Some (s, c)
  | None => None
  end.

(** ComputeFresnelCosineAndSine, fresnel.cc 203-208. *)
Definition ComputeFresnelCosineAndSine (t : R) : option (R * R) :=
  match fresnel t with Some (y, x) => Some (x, y) | None => None end.

(** FresnelSpiralHeading and FresnelSpiralHeadingDot, fresnel.cc 210-212. *)
Definition FresnelSpiralHeading (t k_dot : R) : R := 1 / 2 * t * t * k_dot.
Definition FresnelSpiralHeadingDot (t k_dot : R) : R := t * k_dot.
