(** C113: numbers written with a fixed number of digits. *)
From Coq Require Import List Bool ZArith Ascii String Lia.
From Coq Require Import Floats.SpecFloat.
From Verif Require Import Base Binary64 Binary64_Round Binary64_Order Binary64_Ext FixedText_Model FixedText_Spec FixedText_Proofs.
Import ListNotations.
Local Open Scope Z_scope.

Lemma to_str_ok x precision : 0 <= precision -> to_str x precision = Ok (write_fixed x (Z.to_nat precision)).
Proof. intros P. unfold to_str. destruct (Z.leb_spec 0 precision); [reflexivity|lia]. Qed.

(** to_str throws exactly when fewer than zero digits are asked for. *)
Theorem fixed_text_throws : forall x precision, to_str x precision = Throw <-> precision < 0.
Proof. intros x p. unfold to_str. destruct (Z.leb_spec 0 p); cbn [negb]; split; intros H'; try discriminate; try reflexivity; lia. Qed.
Print Assumptions fixed_text_throws.

(** What the text of a finite double tells: its sign bit and the nearest number of units, and nothing else. *)
Theorem fixed_text_nearest : forall x precision, is_double x -> 0 <= precision ->
  exists s u, to_str x precision = Ok s /\ tells s (sign_bit x) u (Z.to_nat precision) /\ nearest_units x (Z.to_nat precision) u /\
    (forall neg u' p', tells s neg u' p' -> neg = sign_bit x /\ u' = u /\ p' = Z.to_nat precision).
Proof.
  intros x p D P. exists (write_fixed x (Z.to_nat p)), (units x (Z.to_nat p)).
  pose proof (write_fixed_tells x (Z.to_nat p) D) as T.
  split; [apply to_str_ok; exact P|]. split; [exact T|]. split; [apply units_nearest|].
  intros n u' p' T'. exact (tells_unique _ _ _ _ _ _ _ T' T).
Qed.
Print Assumptions fixed_text_nearest.
Example fixed_text_nearest_example :
  let d v := match v with Ok s => string_of_list_ascii s | _ => ""%string end in
  is_double (lit 1005 1000) /\ d (to_str (lit 1005 1000) 2) = "1.00"%string /\ d (to_str (lit (-25) 10) 0) = "-2"%string /\
  d (to_str (lit 35 10) 0) = "4"%string /\ d (to_str (lit 1 10) 20) = "0.10000000000000000555"%string /\ d (to_str (fint 1200) 1) = "1200.0"%string.
Proof. repeat split. Qed.

(** Infinities and NaN are words, no decimals. *)
Theorem fixed_text_words : forall x precision s, finite x = false -> to_str x precision = Ok s -> forall neg u p, ~ tells s neg u p.
Proof.
  intros x p s F E neg u q (w & f & W & D & _ & NE & _).
  assert (S : 0 <= p) by (unfold to_str in E; destruct (Z.leb_spec 0 p); [assumption|discriminate E]).
  rewrite (to_str_ok _ _ S) in E. injection E as <-.
  destruct w as [|c w]; [contradiction|]. apply Forall_inv in D. unfold is_digit in D.
  destruct x as [b|[|]| |b m e]; try discriminate F; destruct neg; cbn in W; inversion W; subst c; vm_compute in D; destruct D as [D1 D2]; try (apply D1; reflexivity); apply D2; reflexivity.
Qed.
Print Assumptions fixed_text_words.
Example fixed_text_words_example : finite (S754_infinity true) = false /\ to_str (S754_infinity true) 3 = Ok (list_ascii_of_string "-inf").
Proof. split; reflexivity. Qed.

Lemma val_sign x : is_double x -> val x = signed (sign_bit x) (Z.abs (val x)).
Proof.
  intros [V F]. destruct x as [s|s| |s m e]; try discriminate F; [destruct s; reflexivity|].
  apply valid_exponent in V. unfold val, sign_bit, signed. rewrite Z.abs_mul. assert (0 < 2 ^ (e + 1074)) by (apply Z.pow_pos_nonneg; lia). destruct s; cbn [Z.abs Z.opp]; lia.
Qed.
Lemma units_nonneg x p : 0 <= units x p.
Proof. unfold units. apply half_even_nonneg; [apply pow1074|]. pose proof (pow10 p). nia. Qed.

(** Larger doubles have texts that tell no smaller number. *)
Theorem fixed_text_order : forall x y precision s t nx ux px ny uy py, is_double x -> is_double y -> fle x y = true ->
  to_str x precision = Ok s -> to_str y precision = Ok t -> tells s nx ux px -> tells t ny uy py -> signed nx ux <= signed ny uy.
Proof.
  intros x y p s t nx ux px ny uy py Dx Dy L Ex Ey Tx Ty.
  assert (S : 0 <= p) by (unfold to_str in Ex; destruct (Z.leb_spec 0 p); [assumption|discriminate Ex]).
  rewrite (to_str_ok _ _ S) in Ex. rewrite (to_str_ok _ _ S) in Ey. injection Ex as <-. injection Ey as <-.
  apply (tells_unique _ _ _ _ _ _ _ (write_fixed_tells x (Z.to_nat p) Dx)) in Tx. destruct Tx as (<- & <- & <-).
  apply (tells_unique _ _ _ _ _ _ _ (write_fixed_tells y (Z.to_nat p) Dy)) in Ty. destruct Ty as (<- & <- & <-).
  rewrite (fle_val x y Dx Dy) in L. apply Z.leb_le in L. rewrite (val_sign x Dx), (val_sign y Dy) in L.
  pose proof (units_nonneg x (Z.to_nat p)) as Ux. pose proof (units_nonneg y (Z.to_nat p)) as Uy. pose proof (pow10 (Z.to_nat p)) as P.
  unfold signed in *. destruct (sign_bit x), (sign_bit y); try lia.
  - enough (units y (Z.to_nat p) <= units x (Z.to_nat p)) by lia. apply half_even_mono; [apply pow1074|nia].
  - assert (Z.abs (val x) = 0 /\ Z.abs (val y) = 0) as [A B] by lia. unfold units in *. rewrite A, B in *. rewrite Z.mul_0_l in *.
    replace (half_even 0 (2 ^ 1074)) with 0 by (symmetry; exact (half_even_exact 0 _ pow1074)). lia.
  - apply half_even_mono; [apply pow1074|nia].
Qed.
Print Assumptions fixed_text_order.
Example fixed_text_order_example : fle (lit (-3) 10) (lit (-1) 10) = true /\
  to_str (lit (-3) 10) 1 = Ok (list_ascii_of_string "-0.3") /\ to_str (lit (-1) 10) 1 = Ok (list_ascii_of_string "-0.1").
Proof. repeat split. Qed.

(** Doubles with the same text are at most one unit apart. *)
Theorem fixed_text_same : forall x y precision s, is_double x -> is_double y -> to_str x precision = Ok s -> to_str y precision = Ok s ->
  sign_bit x = sign_bit y /\ Z.abs (val x - val y) * 10 ^ precision <= 2 ^ 1074.
Proof.
  intros x y p s Dx Dy Ex Ey.
  assert (S : 0 <= p) by (unfold to_str in Ex; destruct (Z.leb_spec 0 p); [assumption|discriminate Ex]).
  rewrite (to_str_ok _ _ S) in Ex. rewrite (to_str_ok _ _ S) in Ey. assert (E : write_fixed x (Z.to_nat p) = write_fixed y (Z.to_nat p)) by congruence.
  pose proof (write_fixed_tells x (Z.to_nat p) Dx) as Tx. rewrite E in Tx.
  destruct (tells_unique _ _ _ _ _ _ _ Tx (write_fixed_tells y (Z.to_nat p) Dy)) as (B & U & _). split; [exact B|].
  pose proof (nearest_units_near _ _ _ (units_nearest x (Z.to_nat p))) as Nx. pose proof (nearest_units_near _ _ _ (units_nearest y (Z.to_nat p))) as Ny.
  rewrite <- U in Ny. rewrite Z2Nat.id in Nx, Ny by exact S. rewrite (val_sign x Dx), (val_sign y Dy), B.
  pose proof (Z.pow_pos_nonneg 10 p ltac:(lia) S) as P. generalize dependent (2 ^ 1074). intros D Nx Ny. unfold signed.
  assert (A : Z.abs (Z.abs (val x) - Z.abs (val y)) * 10 ^ p <= D).
  { replace (Z.abs (Z.abs (val x) - Z.abs (val y)) * 10 ^ p) with (Z.abs (Z.abs (val x) * 10 ^ p - Z.abs (val y) * 10 ^ p)); [lia|].
    replace (Z.abs (val x) * 10 ^ p - Z.abs (val y) * 10 ^ p) with ((Z.abs (val x) - Z.abs (val y)) * 10 ^ p) by ring. rewrite Z.abs_mul, (Z.abs_eq (10 ^ p)) by lia. reflexivity. }
  destruct (sign_bit y); [|exact A]. replace (- Z.abs (val x) - - Z.abs (val y)) with (- (Z.abs (val x) - Z.abs (val y))) by lia. rewrite Z.abs_opp. exact A.
Qed.
Print Assumptions fixed_text_same.
Example fixed_text_same_example : to_str (lit 301 100) 1 = to_str (lit 302 100) 1 /\ to_str (lit 301 100) 1 = Ok (list_ascii_of_string "3.0").
Proof. split; reflexivity. Qed.

(** With 1074 digits or more the text tells the value exactly, so it determines the value. *)
Theorem fixed_text_exact : forall x precision s neg u p, is_double x -> 1074 <= precision -> to_str x precision = Ok s -> tells s neg u p ->
  signed neg u * 2 ^ 1074 = val x * 10 ^ precision.
Proof.
  intros x p s neg u q D P E T. rewrite to_str_ok in E by lia. injection E as <-.
  apply (tells_unique _ _ _ _ _ _ _ (write_fixed_tells x (Z.to_nat p) D)) in T. destruct T as (<- & <- & <-).
  rewrite (val_sign x D). unfold units. rewrite Z2Nat.id by lia.
  assert (X : Z.abs (val x) * 10 ^ p = Z.abs (val x) * 10 ^ (p - 1074) * 5 ^ 1074 * 2 ^ 1074).
  { replace p with (p - 1074 + 1074) at 1 by lia. rewrite Z.pow_add_r by lia. change 10 with (5 * 2) at 2. rewrite Z.pow_mul_l. ring. }
  rewrite X. rewrite half_even_exact by apply pow1074. unfold signed. destruct (sign_bit x); rewrite ?Z.mul_opp_l, ?X; ring.
Qed.
Print Assumptions fixed_text_exact.
Example fixed_text_exact_example : is_double (lit 1 10) /\ (exists s, to_str (lit 1 10) 1074 = Ok s /\ List.length s = 1076%nat).
Proof. split; [split; reflexivity|]. eexists. split; [reflexivity|]. vm_compute. reflexivity. Qed.

(** A number told as zero should have no sign, documented nowhere but relied on by readers of the files: refuted. *)
Theorem fixed_text_zero_sign_refuted : exists x, is_double x /\ flt x fzero = true /\
  to_str x 2 = Ok (list_ascii_of_string "-0.00") /\ tells (list_ascii_of_string "-0.00") true 0 2.
Proof.
  exists (lit (-1) 1000). split; [split; reflexivity|]. split; [reflexivity|]. split; [reflexivity|].
  exact (write_fixed_tells (lit (-1) 1000) 2 ltac:(split; reflexivity)).
Qed.
Print Assumptions fixed_text_zero_sign_refuted.

(** GenerateObjFile chooses a precision of at least log10(5 sqrt 3 / linear_tolerance) digits (generate_obj.cc 1078).
    With that many, the point written for a vertex is within a tenth of the tolerance of the vertex. *)
Theorem vertex_text_distance : forall x y z tolerance precision sx sy sz nx ny nz ux uy uz px py pz,
  is_double x -> is_double y -> is_double z -> 0 <= precision ->
  75 * (2 ^ 1074 * 2 ^ 1074) <= (val tolerance * 10 ^ precision) * (val tolerance * 10 ^ precision) ->
  to_str x precision = Ok sx -> to_str y precision = Ok sy -> to_str z precision = Ok sz ->
  tells sx nx ux px -> tells sy ny uy py -> tells sz nz uz pz ->
  let d v n u := val v * 10 ^ precision - signed n u * 2 ^ 1074 in
  100 * (d x nx ux * d x nx ux + d y ny uy * d y ny uy + d z nz uz * d z nz uz) <= (val tolerance * 10 ^ precision) * (val tolerance * 10 ^ precision).
Proof.
  intros x y z tol p sx sy sz nx ny nz ux uy uz px py pz Dx Dy Dz P T Ex Ey Ez Tx Ty Tz d.
  assert (A : forall v s n u q, is_double v -> to_str v p = Ok s -> tells s n u q -> 2 * Z.abs (d v n u) <= 2 ^ 1074).
  { clear -P. intros v s n u q D E T. rewrite to_str_ok in E by exact P. injection E as <-.
    apply (tells_unique _ _ _ _ _ _ _ (write_fixed_tells v (Z.to_nat p) D)) in T. destruct T as (<- & <- & <-).
    pose proof (nearest_units_near _ _ _ (units_nearest v (Z.to_nat p))) as N. rewrite Z2Nat.id in N by exact P.
    unfold d. rewrite (val_sign v D). unfold signed. destruct (sign_bit v); [|exact N].
    set (U := units v (Z.to_nat p)) in *. replace (- Z.abs (val v) * 10 ^ p - - U * 2 ^ 1074) with (- (Z.abs (val v) * 10 ^ p - U * 2 ^ 1074)) by ring. rewrite Z.abs_opp. exact N. }
  assert (Q : forall a D, 2 * Z.abs a <= D -> 4 * (a * a) <= D * D) by (intros; nia).
  pose proof (Q _ _ (A _ _ _ _ _ Dx Ex Tx)). pose proof (Q _ _ (A _ _ _ _ _ Dy Ey Ty)). pose proof (Q _ _ (A _ _ _ _ _ Dz Ez Tz)).
  set (W := val tol * 10 ^ p * (val tol * 10 ^ p)) in *. generalize dependent (2 ^ 1074 * 2 ^ 1074). intros. lia.
Qed.
Print Assumptions vertex_text_distance.
Example vertex_text_distance_example :
  let t := lit 1 100 in
  75 * (2 ^ 1074 * 2 ^ 1074) <= (val t * 10 ^ 3) * (val t * 10 ^ 3) /\ to_str (lit (-12346) 10000) 3 = Ok (list_ascii_of_string "-1.235").
Proof. split; [vm_compute; discriminate|reflexivity]. Qed.

(** The normals of an OBJ file are written with the same precision (mesh.h 252-253).  However small it is, a normal of
    about unit length is not written as the zero vector. *)
Theorem normal_text_nonzero : forall x y z precision sx sy sz nx ny nz ux uy uz px py pz,
  is_double x -> is_double y -> is_double z ->
  3 * (2 ^ 1074 * 2 ^ 1074) < 4 * (val x * val x + val y * val y + val z * val z) ->
  to_str x precision = Ok sx -> to_str y precision = Ok sy -> to_str z precision = Ok sz ->
  tells sx nx ux px -> tells sy ny uy py -> tells sz nz uz pz -> ~ (ux = 0 /\ uy = 0 /\ uz = 0).
Proof.
  intros x y z p sx sy sz nx ny nz ux uy uz px py pz Dx Dy Dz T Ex Ey Ez Tx Ty Tz (Zx & Zy & Zz).
  assert (P : 0 <= p) by (unfold to_str in Ex; destruct (Z.leb_spec 0 p); [assumption|discriminate Ex]).
  assert (A : forall v s n q, is_double v -> to_str v p = Ok s -> tells s n 0 q -> 2 * Z.abs (val v) <= 2 ^ 1074).
  { clear -P. intros v s n q D E T. rewrite to_str_ok in E by exact P. injection E as <-.
    apply (tells_unique _ _ _ _ _ _ _ (write_fixed_tells v (Z.to_nat p) D)) in T. destruct T as (_ & U & _).
    pose proof (nearest_units_near _ _ _ (units_nearest v (Z.to_nat p))) as N. rewrite U in N. pose proof (pow10 (Z.to_nat p)) as W.
    rewrite Z.mul_0_l, Z.sub_0_r in N. generalize dependent (2 ^ 1074). intros. nia. }
  assert (Q : forall a D, 2 * Z.abs a <= D -> 4 * (a * a) <= D * D) by (intros; nia).
  subst ux uy uz. pose proof (Q _ _ (A _ _ _ _ Dx Ex Tx)). pose proof (Q _ _ (A _ _ _ _ Dy Ey Ty)). pose proof (Q _ _ (A _ _ _ _ Dz Ez Tz)).
  generalize dependent (2 ^ 1074 * 2 ^ 1074). intros. lia.
Qed.
Print Assumptions normal_text_nonzero.
Example normal_text_nonzero_example :
  let x := lit 57735 100000 in
  3 * (2 ^ 1074 * 2 ^ 1074) < 4 * (val x * val x + val x * val x + val x * val x) /\ to_str x 0 = Ok (list_ascii_of_string "1").
Proof. split; [vm_compute; reflexivity|reflexivity]. Qed.

(** ** Materials *)

(** FormatMaterial throws exactly when fewer than zero digits are asked for. *)
Theorem material_throws : forall m precision, FormatMaterial m precision = Throw <-> precision < 0.
Proof.
  intros m p. rewrite <- (fixed_text_throws (fsub (fint 1) (transparency m)) p). unfold FormatMaterial.
  unfold to_str. destruct (negb (0 <=? p)); cbn [obind]; split; intros H; congruence.
Qed.
Print Assumptions material_throws.

(** The seven lines of a material: every colour with six digits, the opacity with as many as asked for. *)
Theorem material_text : forall m precision, finite3 (ambient m) -> finite3 (diffuse m) -> finite3 (specular m) -> is_double (shininess m) ->
  is_double (fsub (fint 1) (transparency m)) -> 0 <= precision ->
  exists a d s n o,
    FormatMaterial m precision = Ok (lines [list_ascii_of_string ("newmtl " ++ m_name m); list_ascii_of_string "Ka " ++ a; list_ascii_of_string "Kd " ++ d;
      list_ascii_of_string "Ks " ++ s; list_ascii_of_string "Ns " ++ n; list_ascii_of_string "illum 2"; list_ascii_of_string "d " ++ o]) /\
    row_shows a (ambient m) 6 /\ row_shows d (diffuse m) 6 /\ row_shows s (specular m) 6 /\ shows n (shininess m) 6 /\
    shows o (fsub (fint 1) (transparency m)) (Z.to_nat precision).
Proof.
  assert (S : forall x p, is_double x -> shows (write_fixed x p) x p) by (intros x p D; exists (units x p); split; [apply write_fixed_tells; exact D|apply units_nearest]).
  assert (R : forall v, finite3 v -> row_shows (FormatVector3AsRow v) v 6).
  { intros [[x y] z] (X & Y & Z). exists (to_string x), (to_string y), (to_string z). split; [reflexivity|]. split; [apply S; exact X|]. split; [apply S; exact Y|apply S; exact Z]. }
  intros m p A D E N O P. unfold FormatMaterial. rewrite to_str_ok by exact P. cbn [obind].
  exists (FormatVector3AsRow (ambient m)), (FormatVector3AsRow (diffuse m)), (FormatVector3AsRow (specular m)), (to_string (shininess m)), (write_fixed (fsub (fint 1) (transparency m)) (Z.to_nat p)).
  split; [|split; [apply R; exact A|split; [apply R; exact D|split; [apply R; exact E|split; [apply S; exact N|apply S; exact O]]]]].
  assert (Q : list_ascii_of_string ("newmtl " ++ m_name m) = txt "newmtl " ++ txt (m_name m)) by reflexivity.
  rewrite Q. unfold lines. cbn [flat_map]. rewrite app_nil_r. rewrite <- !app_assoc. reflexivity.
Qed.
Print Assumptions material_text.
Example material_text_example : exists m, In m kMaterial /\ finite3 (ambient m) /\ finite3 (diffuse m) /\ finite3 (specular m) /\ is_double (shininess m) /\ is_double (fsub (fint 1) (transparency m)).
Proof. eexists. split; [right; left; reflexivity|]. repeat split. Qed.

(** With a digit or more no material is written as wholly transparent. *)
Theorem material_visible : forall m precision, In m kMaterial -> 1 <= precision ->
  exists before d u, FormatMaterial m precision = Ok (before ++ list_ascii_of_string "d " ++ d ++ [ascii_of_nat 10]) /\
    tells d false u (Z.to_nat precision) /\ nearest_units (fsub (fint 1) (transparency m)) (Z.to_nat precision) u /\ 1 <= u.
Proof.
  intros m p I P. set (o := fsub (fint 1) (transparency m)).
  assert (O : is_double o /\ sign_bit o = false /\ 2 ^ 1074 * 99 <= Z.abs (val o) * 1000).
  { subst o. cbn [kMaterial In] in I. repeat destruct I as [<-|I]; try contradiction I; (split; [split; reflexivity|split; [reflexivity|vm_compute; discriminate]]). }
  destruct O as (D & S & V). unfold FormatMaterial. fold o. rewrite to_str_ok by lia. cbn [obind].
  pose proof (write_fixed_tells o (Z.to_nat p) D) as T. rewrite S in T.
  exists (txt "newmtl " ++ txt (m_name m) ++ newline ++ txt "Ka " ++ FormatVector3AsRow (ambient m) ++ newline ++
        txt "Kd " ++ FormatVector3AsRow (diffuse m) ++ newline ++ txt "Ks " ++ FormatVector3AsRow (specular m) ++ newline ++
        txt "Ns " ++ to_string (shininess m) ++ newline ++ txt "illum 2" ++ newline), (write_fixed o (Z.to_nat p)), (units o (Z.to_nat p)).
  split; [rewrite <- !app_assoc; reflexivity|]. split; [exact T|]. split; [apply units_nearest|].
  pose proof (nearest_units_near _ _ _ (units_nearest o (Z.to_nat p))) as N. rewrite Z2Nat.id in N by lia.
  assert (W : 10 <= 10 ^ p) by (change 10 with (10 ^ 1) at 1; apply Z.pow_le_mono_r; lia).
  pose proof pow1074 as K. generalize dependent (2 ^ 1074). intros. nia.
Qed.
Print Assumptions material_visible.
Example material_visible_example : exists m, In m kMaterial /\ m_name m = "lane_haze"%string /\
  match FormatMaterial m 3 with Ok s => string_of_list_ascii s | _ => ""%string end =
  ("newmtl lane_haze" ++ String "010" ("Ka 0.900000 0.900000 0.900000" ++ String "010" ("Kd 0.900000 0.900000 0.900000" ++ String "010"
   ("Ks 0.900000 0.900000 0.900000" ++ String "010" ("Ns 10.100000" ++ String "010" ("illum 2" ++ String "010" ("d 0.200" ++ String "010" "")))))))%string.
Proof. eexists. split; [right; left; reflexivity|]. split; reflexivity. Qed.

(** With none, which is what a linear tolerance of 5 sqrt 3 or more leads to, all but one are: refuted. *)
Theorem material_visible_refuted : exists m before, In m kMaterial /\ flt (transparency m) (fint 1) = true /\ m_name m = "marker_paint"%string /\
  FormatMaterial m 0 = Ok (before ++ list_ascii_of_string "d 0" ++ [ascii_of_nat 10]) /\
  Forall (fun m => m_name m = "bland_asphalt"%string \/ exists b, FormatMaterial m 0 = Ok (b ++ list_ascii_of_string "d 0" ++ [ascii_of_nat 10])) kMaterial.
Proof.
  assert (G : forall m, fsub (fint 1) (transparency m) = lit 5 10 \/ write_fixed (fsub (fint 1) (transparency m)) 0 = ["0"%char] -> exists b, FormatMaterial m 0 = Ok (b ++ list_ascii_of_string "d 0" ++ [ascii_of_nat 10])).
  { intros m H. assert (H' : write_fixed (fsub (fint 1) (transparency m)) 0 = ["0"%char]) by (destruct H as [H|H]; [rewrite H; reflexivity|exact H]).
    unfold FormatMaterial. rewrite to_str_ok by lia. cbn [obind]. change (Z.to_nat 0) with 0%nat. rewrite H'.
    exists (txt "newmtl " ++ txt (m_name m) ++ newline ++ txt "Ka " ++ FormatVector3AsRow (ambient m) ++ newline ++
        txt "Kd " ++ FormatVector3AsRow (diffuse m) ++ newline ++ txt "Ks " ++ FormatVector3AsRow (specular m) ++ newline ++
        txt "Ns " ++ to_string (shininess m) ++ newline ++ txt "illum 2" ++ newline). rewrite <- !app_assoc. reflexivity. }
  assert (M : exists m, In m kMaterial /\ m_name m = "marker_paint"%string /\ flt (transparency m) (fint 1) = true /\ write_fixed (fsub (fint 1) (transparency m)) 0 = ["0"%char]).
  { eexists. split; [right; right; left; reflexivity|]. repeat split; reflexivity. }
  destruct M as (m & I & N & F & W). destruct (G m (or_intror W)) as [b B]. exists m, b.
  split; [exact I|]. split; [exact F|]. split; [exact N|]. split; [exact B|].
  unfold kMaterial. constructor; [left; reflexivity|]. repeat (constructor; [right; apply G; right; reflexivity|]). constructor.
Qed.
Print Assumptions material_visible_refuted.
