(** C17, C18: connected components of segments. *)
From Coq Require Import List Arith Bool Lia Relations.
From Verif Require Import Base Confluent_Model Confluent_Spec Confluent_Proofs.
Import ListNotations.

(** C17.  On a finite road geometry the search stops and returns, without
    repetition, exactly the segments reachable by one or more confluence steps. *)
Theorem find_confluent_segments_reachable :
  forall g U seed fuel, closed_universe g U -> In seed U -> fuel > length U ->
  exists v, FindConfluentSegments g fuel seed = Ok v /\ NoDup v /\
    forall x, In x v <-> clos_trans nat (confluent g) seed x.
Proof. intros g U seed fuel H1 H2 H3. exact (find_ok g U H1 seed H2 fuel H3). Qed.
Print Assumptions find_confluent_segments_reachable.

(** C17.  When the seed is confluent with itself (one of its lanes has a branch
    point) the result is the whole connected component, the seed included. *)
Theorem find_confluent_segments_component :
  forall g U seed fuel, closed_universe g U -> In seed U -> fuel > length U -> confluent g seed seed ->
  exists v, FindConfluentSegments g fuel seed = Ok v /\ NoDup v /\
    forall x, In x v <-> connected g seed x.
Proof.
  intros g U seed fuel H1 H2 H3 Hs. destruct (find_ok g U H1 seed H2 fuel H3) as (v & E & N & R).
  exists v. split; [exact E|]. split; [exact N|]. intro x. rewrite R. split.
  - intro K. induction K; [apply rt_step; auto|].
    clear -K1 K2. assert (forall a b, reach1 g a b -> connected g a b) as T.
    { intros a b K. induction K; [apply rt_step; auto|eapply rt_trans; eauto]. }
    eapply rt_trans; apply T; eauto.
  - intro K. apply clos_rt_rtn1 in K. induction K as [|y z A B IH].
    + apply t_step. exact Hs.
    + eapply t_trans; [exact IH|apply t_step; exact A].
Qed.
Print Assumptions find_confluent_segments_component.

(** Three segments: 0 and 1 joined by their lanes 0 and 1, segment 2 apart. *)
Definition g3 : geometry := {|
  g_lanes := fun s => [None; Some s];
  g_confluent := fun l e =>
    match l, e with
    | 0, true => Some [0; 1] | 1, true => Some [0; 1]
    | 2, false => Some [2] | _, _ => None
    end;
  g_segment := fun l => Some l;
  g_junctions := [None; Some [0; 2]; Some [1]] |}.

Example C17_example : FindConfluentSegments g3 4 0 = Ok [1; 0].
Proof. reflexivity. Qed.

Lemma g3_confluent s t : confluent g3 s t <-> (s < 2 /\ t < 2) \/ (s = 2 /\ t = 2).
Proof.
  split.
  - intros (l & e & m & ls & A & B & C & D). simpl in A. destruct A as [A|[A|[]]]; [discriminate|].
    inversion A; subst l. inversion D; subst m. clear A D.
    destruct s as [|[|[|s]]]; destruct e; simpl in B; try discriminate; inversion B; subst ls; simpl in C; intuition lia.
  - intros [[A B]|[-> ->]].
    + exists s, true, t, [0; 1]. destruct s as [|[|s]]; [| |lia]; destruct t as [|[|t]]; try lia; simpl; auto 8.
    + exists 2, false, 2, [2]. simpl. auto.
Qed.
Example C17_example_hypotheses : closed_universe g3 [0; 1; 2] /\ confluent g3 0 0.
Proof.
  split.
  - intros s t Hs H. apply g3_confluent in H. simpl. lia.
  - apply g3_confluent. lia.
Qed.

(** C18.  With a symmetric confluence relation and every segment confluent with
    itself: the components are pairwise disjoint, cover the road geometry, none
    is superfluous, and each is a class of "connected". *)
Theorem analyze_confluent_segments_partition :
  forall g U fuel, closed_universe g U -> (forall s, in_geometry g s -> In s U) -> fuel > length U ->
  (forall s t, confluent g s t -> confluent g t s) ->
  (forall s, In s U -> confluent g s s) ->
  exists cs, AnalyzeConfluentSegments g fuel = Ok cs /\
    ForallOrdPairs (fun c d => forall x, In x c -> ~ In x d) cs /\
    (forall s, in_geometry g s -> exists c, In c cs /\ In s c) /\
    (forall c, In c cs -> NoDup c /\ exists s, in_geometry g s /\ In s c) /\
    (forall c x, In c cs -> In x c -> forall y, In y c <-> connected g x y).
Proof.
  intros g U fuel H1 H2 H3 H4 H5. exact (analyze_ok g U H1 fuel H3 H4 H5 H2).
Qed.
Print Assumptions analyze_confluent_segments_partition.

Example C18_example : AnalyzeConfluentSegments g3 4 = Ok [[1; 0]; [2]].
Proof. reflexivity. Qed.
Example C18_example_hypotheses :
  (forall s, in_geometry g3 s -> In s [0; 1; 2]) /\
  (forall s t, confluent g3 s t -> confluent g3 t s) /\
  (forall s, In s [0; 1; 2] -> confluent g3 s s).
Proof.
  repeat split.
  - intros s (segs & [A|[A|[A|[]]]] & B); try discriminate; inversion A; subst; simpl in *; intuition.
  - intros s t H. apply g3_confluent in H. apply g3_confluent. lia.
  - intros s H. apply g3_confluent. simpl in H. lia.
Qed.

(** Finding: without "every segment is confluent with itself" the partition claim
    is false: a segment whose lanes have no branch points yet (or without lanes)
    is in no component, and one empty component is returned for each of them. *)
Theorem analyze_confluent_segments_coverage_refuted :
  exists g U fuel cs, closed_universe g U /\ (forall s, in_geometry g s -> In s U) /\ fuel > length U /\
    (forall s t, confluent g s t -> confluent g t s) /\
    AnalyzeConfluentSegments g fuel = Ok cs /\
    (exists s, in_geometry g s /\ forall c, In c cs -> ~ In s c) /\
    (exists pre mid post, cs = pre ++ [] :: mid ++ [] :: post).
Proof.
  exists {| g_lanes := fun s => if Nat.eqb s 0 then [] else [Some s];
            g_confluent := fun _ _ => None; g_segment := fun l => Some l;
            g_junctions := [Some [0; 1]] |}, [0; 1], 3, [[]; []].
  repeat split.
  - intros s t _ (l & e & m & ls & _ & B & _). discriminate.
  - intros s (segs & [A|[]] & B). inversion A; subst. exact B.
  - simpl. lia.
  - intros s t (l & e & m & ls & _ & B & _). discriminate.
  - exists 0. split; [exists [0; 1]; simpl; auto|]. intros c [<-|[<-|[]]] [].
  - exists [], [], []. reflexivity.
Qed.
Print Assumptions analyze_confluent_segments_coverage_refuted.
