(** C30: the value of the potential on the electrode plane. *)
From Coquelicot Require Import Coquelicot.
From Verif Require Import Base ModelField SpecField SpecPoly SpecBound ProofBound.
Open Scope R_scope.

(** Above the inside of a counter-clockwise triangle the potential at 1 V
    tends to 1, whatever the number of mirror images. *)
Theorem C30_inside : forall a b c q (n : nat) h,
  0 < signed_area [a; b; c] -> inside3 a b c q -> h <> 0 \/ n = 0%nat ->
  limit_from_above (fun z => value (EPolygon [[a; b; c]] (Z.of_nat n) h) 0 0 (P3 (fst q) (snd q) z)) 1.
Proof. exact triangle_inside. Qed.
Print Assumptions C30_inside.
Example C30_inside_case : 0 < signed_area [(0, 0); (1, 0); (0, 1)] /\ inside3 (0, 0) (1, 0) (0, 1) (1 / 4, 1 / 4).
Proof.
  split.
  - unfold signed_area, edges_of, sum_over, cross2. cbn [combine last removelast map fst snd sumR]. lra.
  - exists (1 / 2), (1 / 4), (1 / 4). cbn [fst snd]. lra.
Qed.

(** Above a point that is not in the closed triangle it tends to 0. *)
Theorem C30_outside : forall a b c q (n : nat) h,
  0 < signed_area [a; b; c] -> ~ in_closed3 a b c q -> h <> 0 \/ n = 0%nat ->
  limit_from_above (fun z => value (EPolygon [[a; b; c]] (Z.of_nat n) h) 0 0 (P3 (fst q) (snd q) z)) 0.
Proof. exact triangle_outside. Qed.
Print Assumptions C30_outside.
Example C30_outside_case : 0 < signed_area [(0, 0); (1, 0); (0, 1)] /\ ~ in_closed3 (0, 0) (1, 0) (0, 1) (1, 1).
Proof.
  split; [apply C30_inside_case|]. intros (u & v & w & Hu & Hv & Hw & S & X & Y). cbn [fst snd] in X, Y. lra.
Qed.

(** A closed path that misses q goes a whole number of times around q. *)
Theorem C30_whole_turns : forall q path, path <> [] -> off_path q path -> exists k, winds q path k.
Proof. exact winds_exists. Qed.
Print Assumptions C30_whole_turns.

(** For any electrode made of closed paths, simple or not: above a point on
    none of their edges the potential tends to the total number of turns of
    the paths around the point, and below to its negative. *)
Theorem C30_winding : forall q paths ks (n : nat) h,
  (forall path, In path paths -> path <> [] /\ off_path q path) ->
  List.Forall2 (winds q) paths ks -> h <> 0 \/ n = 0%nat ->
  limit_from_above (fun z => value (EPolygon paths (Z.of_nat n) h) 0 0 (P3 (fst q) (snd q) z)) (sum_over ks IZR).
Proof. exact boundary. Qed.
Print Assumptions C30_winding.
Theorem C30_winding_below : forall q paths ks (n : nat) h,
  (forall path, In path paths -> path <> [] /\ off_path q path) ->
  List.Forall2 (winds q) paths ks -> h <> 0 \/ n = 0%nat ->
  limit_from_below (fun z => value (EPolygon paths (Z.of_nat n) h) 0 0 (P3 (fst q) (snd q) z)) (- sum_over ks IZR).
Proof. exact boundary_below. Qed.
Print Assumptions C30_winding_below.
(** a path that goes twice around, and once around *)
Example C30_winding_case : let a := (0, 0) in let b := (1, 0) in let c := (0, 1) in let q := (1 / 4, 1 / 4) in
  let paths := [[a; b; c]; [a; b; c; a; b; c]] in
  (forall path, In path paths -> path <> [] /\ off_path q path) /\ List.Forall2 (winds q) paths [1%Z; 2%Z].
Proof.
  cbn zeta. destruct C30_inside_case as [A I]. destruct (inside_off _ _ _ _ A I) as (_ & _ & _ & O).
  destruct (C30_whole_turns _ [(0, 0); (1, 0); (0, 1)] ltac:(discriminate) O) as [k W].
  pose proof (inside_winds _ _ _ _ _ A I W). subst k. split.
  - intros p [<-|[<-|[]]]; split; try discriminate; [exact O|]. intros e He. apply O.
    cbn in He. cbn. tauto.
  - constructor; [exact W|]. constructor; [|constructor]. destruct W as (als & F & S). exists (als ++ als). split.
    + change (edges_of [(0, 0); (1, 0); (0, 1); (0, 0); (1, 0); (0, 1)]) with
        (edges_of [(0, 0); (1, 0); (0, 1)] ++ edges_of [(0, 0); (1, 0); (0, 1)]). now apply List.Forall2_app.
    + assert (E : forall l m, sumR (l ++ m) = sumR l + sumR m) by (induction l; intros; cbn; [ring|rewrite IHl; ring]).
      rewrite E, S. lra.
Qed.
