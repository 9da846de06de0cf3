(** C111: vectors written as texts. *)
From Coq Require Import String List Bool Arith ZArith Lia Ascii.
From Coq Require Import Floats.SpecFloat.
From Verif Require Import Base Binary64 Vectors_Model Vectors_Spec Vectors_Proofs2.
Import ListNotations.
Local Open Scope Z_scope.

(** FromStr reads "{A,B,...}" of any dimension as the values of A, B, ..., whatever white space they carry; [stod]
    is only asked to stop at a comma or a brace. *)
Theorem from_str_reads : forall stod ts vs, ts <> [] -> Forall2 (number_text stod) ts vs -> Z.of_nat (List.length (braces ts)) < 2 ^ 64 - 1 ->
  FromStr stod (List.length ts) (braces ts) = Ok vs.
Proof. intros stod ts vs N F S. apply from_str_ok; assumption. Qed.
Print Assumptions from_str_reads.

(** Another dimension is refused, and so is a text without one or both of its braces. *)
Theorem from_str_dimension : forall stod ts vs n, ts <> [] -> Forall2 (number_text stod) ts vs -> (1 <= n)%nat -> n <> List.length ts ->
  FromStr stod n (braces ts) = Throw /\ FromStr stod (List.length ts) (commas ts) = Throw /\
  FromStr stod (List.length ts) ("{"%char :: commas ts) = Throw /\ FromStr stod (List.length ts) (commas ts ++ ["}"%char]) = Throw.
Proof.
  intros stod ts vs n N F P D. destruct (count_commas stod ts vs F N) as (A & B & C). unfold FromStr. rewrite A. split; [|split; [reflexivity|]].
  2: { change ("{"%char :: commas ts) with (["{"%char] ++ commas ts). rewrite !count_app, A, B. split; reflexivity. }
  change (braces ts) with (["{"%char] ++ commas ts ++ ["}"%char]). rewrite !count_app, A, B, C.
  change (count "{" ["{"%char] + (0 + count "{" ["}"%char]) =? 1)%nat with true. change (count "}" ["{"%char] + (0 + count "}" ["}"%char]) =? 1)%nat with true. change (count "," ["{"%char]) with 0%nat. change (count "," ["}"%char]) with 0%nat. cbn [throw_unless].
  replace (0 + (List.length ts - 1 + 0) =? n - 1)%nat with false; [reflexivity|]. symmetry. apply Nat.eqb_neq. destruct ts; [congruence|]. cbn [List.length] in *. lia.
Qed.
Print Assumptions from_str_dimension.

(** Writing and reading back: every component becomes what [stod] makes of the digits printed for it, in its place. *)
Lemma to_str_commas print : forall v i, to_str_loop print (S i) v = concat (map (fun x => ","%char :: " "%char :: print x) v).
Proof. induction v as [|x v IH]; intros i; [reflexivity|]. cbn [to_str_loop Nat.eqb map concat app Nat.add]. rewrite IH, <- ?app_assoc. reflexivity. Qed.
Lemma commas_concat t ts : commas (t :: ts) = t ++ concat (map (cons ","%char) ts).
Proof. revert t. induction ts as [|t' ts IH]; intros t; [cbn; rewrite app_nil_r; reflexivity|]. change (commas (t :: t' :: ts)) with (t ++ ","%char :: commas (t' :: ts)). rewrite IH. reflexivity. Qed.
Theorem from_str_to_str : forall stod print reread v, v <> [] ->
  (forall x, In x v -> number_text stod (print x) (reread x) /\ number_text stod (" "%char :: print x) (reread x)) ->
  Z.of_nat (List.length (to_str print v)) < 2 ^ 64 - 1 -> FromStr stod (List.length v) (to_str print v) = Ok (map reread v).
Proof.
  intros stod print reread [|x v] N H S; [congruence|]. set (ts := print x :: map (fun y => " "%char :: print y) v).
  assert (E : to_str print (x :: v) = braces ts).
  { unfold to_str, braces, ts. rewrite commas_concat. cbn [to_str_loop Nat.eqb app Nat.add]. rewrite to_str_commas, map_map. reflexivity. }
  rewrite E in *. replace (List.length (x :: v)) with (List.length ts) by (unfold ts; cbn [List.length]; rewrite map_length; reflexivity).
  apply from_str_reads; [discriminate| |exact S]. unfold ts. cbn [map]. constructor; [apply H; left; reflexivity|].
  assert (G : forall y, In y v -> number_text stod (" "%char :: print y) (reread y)) by (intros y Y; apply H; right; exact Y). clear - G. induction v as [|y v IH]; cbn [map]; constructor; [apply G; left; reflexivity|]. apply IH. intros z Z0. apply G. right. exact Z0.
Qed.
Print Assumptions from_str_to_str.

(** Finding: texts that do not follow the format are accepted: braces the wrong way round, and anything after a number
    that [stod] leaves unread. *)
Theorem from_str_format_refuted : forall stod x y z,
  let s := list_ascii_of_string in stod (s "1"%string) = Ok x -> stod (s "2{"%string) = Ok y -> stod (s "1 7"%string) = Ok x -> stod (s "3}"%string) = Ok z ->
  FromStr stod 2 (s "}1,2{"%string) = Ok [x; y] /\ FromStr stod 2 (s "{1 7,3}"%string) = Ok [x; z].
Proof. intros stod x y z s A B C D. split; [change (FromStr stod 2 (s "}1,2{"%string)) with (obind (stod (s "1"%string)) (fun x => omap (cons x) (obind (stod (s "2{"%string)) (fun x => omap (cons x) (Ok [])))))|change (FromStr stod 2 (s "{1 7,3}"%string)) with (obind (stod (s "1 7"%string)) (fun x => omap (cons x) (obind (stod (s "3}"%string)) (fun x => omap (cons x) (Ok [])))))]; rewrite ?A, ?B, ?C, ?D; reflexivity. Qed.
Print Assumptions from_str_format_refuted.

(** ** Examples *)
(** A reader of single digits after white space. *)
Fixpoint digit_stod (t : text) : outcome double :=
  match t with
  | [] => Throw
  | c :: t' => if Ascii.eqb c " " then digit_stod t' else
      let k := Z.of_nat (nat_of_ascii c) - 48 in if (0 <=? k) && (k <=? 9) then Ok (fint k) else Throw
  end.
Example digit_text : number_text digit_stod (list_ascii_of_string " 4"%string) (fint 4) /\ number_text digit_stod (list_ascii_of_string "7 "%string) (fint 7).
Proof. split; (split; [intros c [<-|[<-|[]]]; repeat split; discriminate|intros rest _; reflexivity]). Qed.
Example from_str_example : let s := list_ascii_of_string in
  FromStr digit_stod 3 (s "{7 , 4,5}"%string) = Ok [fint 7; fint 4; fint 5] /\ FromStr digit_stod 1 (s "{ 9}"%string) = Ok [fint 9] /\
  FromStr digit_stod 2 (s "{7 , 4,5}"%string) = Throw /\ FromStr digit_stod 2 (s "}1,2{"%string) = Ok [fint 1; fint 2].
Proof. split; [vm_compute; reflexivity|]. split; [vm_compute; reflexivity|]. split; vm_compute; reflexivity. Qed.
