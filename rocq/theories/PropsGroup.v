(** Property theorems C35-C39. *)
From Coq Require Import Sorted.
From Verif Require Import Base ModelUtils ModelField ModelCons SpecField SpecCons ProofField ProofSys ProofPoly3 ProofCons ProofGroup.
Open Scope R_scope.
Notation length := List.length.

(** ** C35 *)
(** group [i] consists of the electrodes of bin [i], in their order *)
Theorem C35_groups : forall s thr vs, length vs = length s -> Forall is_polygon s ->
  exists gs, group s thr (Some vs) = Ok gs /\ length gs = S (length thr) /\
  forall i, (i <= length thr)%nat -> exists js, StronglySorted lt js /\
    (forall j, In j js <-> (j < length s)%nat /\ in_bin thr i (nth j vs 0)) /\
    nth_error gs i = Some (Electrode ""%string (mean (map (fun j => edc (nth j s dflt)) js)) (mean (map (fun j => erf (nth j s dflt)) js))
      (EPolygon (flat_map (fun j => polys (nth j s dflt)) js) 0 50)).
Proof. exact group_partition. Qed.
(** ascending thresholds: each voltage is in exactly one bin *)
Theorem C35_exactly_one : forall thr v, ascending thr -> exists! i, in_bin thr i v.
Proof. exact one_bin. Qed.
(** without voltages, those of the system *)
Theorem C35_default : forall s thr, group s thr None = group s thr (Some (map edc s)).
Proof. reflexivity. Qed.
Example C35_example : ascending [-1; 2] /\ in_bin [-1; 2] 1 (-1) /\ in_bin [-1; 2] 2 2 /\ in_bin [-1; 2] 0 (-3) /\
  Forall is_polygon [Electrode "a" 1 0 (EPolygon [[(0, 0); (1, 0); (0, 1)]] 0 50)].
Proof.
  assert (A : ascending [-1; 2]).
  { intros [|[|i]] [|[|j]] H1 H2; cbn in *; try lia; lra. }
  assert (B : forall i v, (i <= 2)%nat -> (forall k, i = S k -> nth k [-1; 2] 0 <= v) -> ((i < 2)%nat -> v < nth i [-1; 2] 0) -> in_bin [-1; 2] i v).
  { intros i v H1 H2 H3. split; [exact H1|]. split; [exact H2|exact H3]. }
  split; [exact A|]. split; [|split; [|split]].
  - apply B; [lia| |intros _; cbn; lra]. intros k Hk. injection Hk as <-. cbn. lra.
  - apply B; [lia| |lia]. intros k Hk. injection Hk as <-. cbn. lra.
  - apply B; [lia|discriminate|]. intros _. cbn. lra.
  - constructor; [exact I|constructor].
Qed.
Print Assumptions C35_groups.
Print Assumptions C35_exactly_one.
Print Assumptions C35_default.

(** ** C36 *)
(** polygons without a cover plane; equal voltages (of the kind asked for)
    inside each group *)
Theorem C36_same_field_partial : forall s thr vs xs d t, length vs = length s -> ascending thr ->
  (forall e, In e s -> is_polygon e /\ well_formed (egeom e) /\ no_cover e) ->
  (forall i j k, (j < length s)%nat -> (k < length s)%nat -> in_bin thr i (nth j vs 0) -> in_bin thr i (nth k vs 0) ->
     volt_of t (nth j s dflt) = volt_of t (nth k s dflt)) ->
  exists gs pot, group s thr (Some vs) = Ok gs /\ electrical_potential gs xs d t = Ok pot /\ electrical_potential s xs d t = Ok pot.
Proof. exact group_field. Qed.
(** the groups forget the cover plane *)
Theorem C36_refuted_cover : exists s gs pot pot', (forall e, In e s -> is_polygon e /\ well_formed (egeom e)) /\ length s = 1%nat /\
  group s [] None = Ok gs /\ electrical_potential gs [P3 0 0 5] 0 TDc = Ok pot /\
  electrical_potential s [P3 0 0 5] 0 TDc = Ok pot' /\ pot <> pot'.
Proof. exact group_loses_cover. Qed.
Example C36_example : let e v x := Electrode "a" v 0 (EPolygon [[(x, 0); (x + 1, 0); (x, 1)]] 0 50) in
  let s := [e 1 0; e 3 2; e 1 4] in
  (forall e, In e s -> is_polygon e /\ well_formed (egeom e) /\ no_cover e) /\
  (forall i j k, (j < length s)%nat -> (k < length s)%nat -> in_bin [2] i (nth j [1; 3; 1] 0) -> in_bin [2] i (nth k [1; 3; 1] 0) ->
     volt_of TDc (nth j s dflt) = volt_of TDc (nth k s dflt)).
Proof.
  intros e s. split.
  - intros el [<-|[<-|[<-|[]]]]; (split; [exact I|split; [cbn; intros [H|[]]; discriminate|reflexivity]]).
  - intros i j k Hj Hk (H1 & H2 & H3) (_ & K2 & K3). change (length s) with 3%nat in *. cbn [length] in H1, H3, K3.
    assert (Hi : i = 0%nat \/ i = 1%nat) by lia.
    destruct j as [|[|[|j]]]; [..|lia]; destruct k as [|[|[|k]]]; [..|lia| | | |lia| | | |lia]; try reflexivity; exfalso;
      (destruct Hi as [-> | ->]; [specialize (H3 ltac:(lia)); specialize (K3 ltac:(lia)); cbn in *; lra
                                |specialize (H2 0%nat eq_refl); specialize (K2 0%nat eq_refl); cbn in *; lra]).
Qed.
Print Assumptions C36_same_field_partial.
Print Assumptions C36_refuted_cover.

(** ** C37 *)
(** whatever the pseudo-inverse and the solver (that respects constraints)
    return: the constraints hold and all objectives but the last are met *)
Theorem C37_met_partial : forall pinv solver constraints p c n, sound_solver solver n -> widths (objectives constraints) n ->
  length (pinv (map fst (objectives constraints)) (map snd (objectives constraints))) = n ->
  optimize pinv solver constraints = Ok (p, c) ->
  admits (flat_map snd constraints) p /\ length p = n /\
  forall i, (S i < length (objectives constraints))%nat -> objective_at (objectives constraints) i p = c * requested (objectives constraints) i.
Proof. exact optimize_spec. Qed.
(** the last one too, if [g] reaches the request, lies in the row space, and
    the last row takes part in it *)
Theorem C37_last_met_partial : forall pinv solver constraints p c n y, let obj := objectives constraints in
  let g := pinv (map fst obj) (map snd obj) in
  sound_solver solver n -> widths obj n -> length g = n -> g2_of g <> 0 ->
  (forall i, (i < length obj)%nat -> objective_at obj i g = requested obj i) ->
  length y = length obj -> (forall q, length q = n -> dot g q = combine_rows y obj q) -> last y 0 <> 0 ->
  optimize pinv solver constraints = Ok (p, c) ->
  forall i, (i < length obj)%nat -> objective_at obj i p = c * requested obj i.
Proof. exact optimize_last. Qed.
(** otherwise not: objectives v0 = 1, v1 = 0, voltages within -1..1.  The
    exact [g], a feasible optimum [p], and v1 = 1/2. *)
Theorem C37_refuted_last : exists constraints g p, objectives constraints = [([1; 0], 1); ([0; 1], 0)] /\
  pattern_range (Some (-1)) (Some 1) None 2 = Ok (flat_map snd constraints) /\
  (forall i, (i < 2)%nat -> objective_at (objectives constraints) i g = requested (objectives constraints) i) /\
  admits (opt_ctrs constraints g) p /\ length p = 2%nat /\
  (forall q, length q = 2%nat -> admits (opt_ctrs constraints g) q -> dot g q <= dot g p) /\
  forall pinv solver, pinv [[1; 0]; [0; 1]] [1; 0] = g -> solver g (opt_ctrs constraints g) = Some p ->
    exists c, optimize pinv solver constraints = Ok (p, c) /\
    objective_at (objectives constraints) 1 p <> c * requested (objectives constraints) 1.
Proof.
  exists last_lost, [1; 0], [1; 1 / 2]. split; [reflexivity|]. split; [exact last_lost_range|]. split; [|split; [|split; [reflexivity|split]]].
  - intros [|[|i]] Hi; [..|lia]; unfold objective_at, requested, objectives, dot, sumR; cbn; ring.
  - apply last_lost_feasible; [reflexivity|]. cbn. lra.
  - intros q Hq Ha. apply last_lost_feasible in Ha; [|exact Hq]. destruct q as [|a [|b [|? ?]]]; try discriminate.
    unfold dot, sumR. cbn in *. lra.
  - intros pinv solver Eg Es. unfold optimize. cbn [last_lost flat_map fst app map snd]. fold last_lost. rewrite Eg, Es.
    eexists. split; [reflexivity|]. unfold objective_at, requested, objectives, dot, sumR. cbn. lra.
Qed.
Example C37_example : sound_solver (fun _ _ => @None (list R)) 3 /\ widths [([1; 0], 1); ([0; 1], 0)] 2.
Proof. split; [intros g cs p H; discriminate|]. intros c [<-|[<-|[]]]; reflexivity. Qed.
(** the hypotheses of C37_last_met_partial: request (1, 1), y = (1, 1) *)
Example C37_example_last : let obj := [([1; 0], 1); ([0; 1], 1)] in let g := [1; 1] in
  g2_of g <> 0 /\ (forall i, (i < 2)%nat -> objective_at obj i g = requested obj i) /\
  forall q, length q = 2%nat -> dot g q = combine_rows [1; 1] obj q.
Proof.
  cbn zeta. split; [unfold g2_of, dot, sumR; cbn; lra|]. split.
  - intros [|[|i]] Hi; [..|lia]; unfold objective_at, requested, dot, sumR; cbn; ring.
  - intros [|a [|b [|? ?]]] H; try discriminate. unfold dot, combine_rows, dot, sumR. cbn. ring.
Qed.
Print Assumptions C37_met_partial.
Print Assumptions C37_last_met_partial.
Print Assumptions C37_refuted_last.

(** ** C38 *)
(** each call of optimize reaching its requests (C37): vector [i] gives 1 on
    its own objective, 0 on the earlier ones and the initial value on the
    later ones *)
Theorem C38_vectors : forall opt coefs k user vals vectors, exact_opt opt coefs -> length coefs = (k + length user)%nat ->
  shims opt k user = (vals, Ok vectors) ->
  vals = repeat (Some 0) (length coefs) /\ length vectors = length coefs /\
  forall i j, (i < length coefs)%nat -> (j < length coefs)%nat ->
    (j = i -> dot (nth j coefs []) (nth i vectors []) = 1) /\
    ((j < i)%nat -> dot (nth j coefs []) (nth i vectors []) = 0) /\
    ((i < j)%nat -> forall v, nth j (repeat (Some 0) k ++ user) None = Some v -> dot (nth j coefs []) (nth i vectors []) = v).
Proof. exact shims_general. Qed.
(** hence unit vectors, if the given objectives start at 0 *)
Theorem C38_unit_partial : forall opt coefs k user vals vectors, exact_opt opt coefs -> length coefs = (k + length user)%nat ->
  Forall (fun v => v = Some 0) user -> shims opt k user = (vals, Ok vectors) ->
  length vectors = length coefs /\
  forall i j, (i < length coefs)%nat -> (j < length coefs)%nat ->
    dot (nth j coefs []) (nth i vectors []) = if (i =? j)%nat then 1 else 0.
Proof.
  intros opt coefs k user vals vectors HX HL HU H. destruct (shims_general opt coefs k user vals vectors HX HL H) as (_ & HV & HA).
  split; [exact HV|]. intros i j Hi Hj. destruct (HA i j Hi Hj) as (A1 & A2 & A3). destruct (Nat.eqb_spec i j) as [E|E]; [now apply A1|].
  destruct (Nat.lt_ge_cases j i) as [L|L]; [now apply A2|]. apply A3; [lia|].
  assert (F : Forall (fun v => v = Some 0) (repeat (Some 0) k ++ user)).
  { apply Forall_app. split; [|exact HU]. apply Forall_forall. intros x Hx. now apply repeat_spec in Hx. }
  rewrite Forall_forall in F. apply F, nth_In. rewrite app_length, repeat_length. lia.
Qed.
(** otherwise the first vectors are contaminated: one derivative and one
    objective that starts at 1 *)
Theorem C38_refuted_initial : exists opt coefs vals vectors, exact_opt opt coefs /\ length coefs = 2%nat /\
  shims opt 1 [Some 1] = (vals, Ok vectors) /\ dot (nth 1 coefs []) (nth 0 vectors []) = 1.
Proof.
  set (opt := fun vals : list (option R) => match vals with
     | [Some a; Some b] => Ok ([a; b], 1) | _ => Raise ValueError end).
  assert (HX : exact_opt opt [[1; 0]; [0; 1]]).
  { intros vals p c Hl H. destruct vals as [|[a|] [|[b|] [|? ?]]]; try discriminate. injection H as <- <-. split; [lra|].
    intros [|[|i]] v Hv; cbn in Hv; try (injection Hv as <-; unfold dot, sumR; cbn; ring). now destruct i. }
  exists opt, [[1; 0]; [0; 1]], (repeat (Some 0) 2), [[1 / 1; 1 / 1]; [0 / 1; 1 / 1]]. split; [exact HX|]. split; [reflexivity|].
  split; [reflexivity|]. unfold dot, sumR. cbn. field.
Qed.
(** a failing optimize leaves the value of one objective at 1 *)
Theorem C38_failure_leaks : forall opt k user vals e, shims opt k user = (vals, Raise e) ->
  exists i, (i < k + length user)%nat /\ nth_error vals i = Some (Some 1).
Proof.
  intros opt k user vals e H. destruct (shims_failure opt e _ _ _ _ H) as (i & Hi & E).
  - apply Forall_forall. intros i Hi. now apply in_seq in Hi.
  - exists i. split; [|exact E]. apply in_seq in Hi. rewrite app_length, repeat_length in Hi. lia.
Qed.
Example C38_example : shims (fun vals => match vals with [Some a; Some b] => Ok ([a; b], 1) | _ => Raise ValueError end) 2 [] =
  (repeat (Some 0) 2, Ok [[1 / 1; 0 / 1]; [0 / 1; 1 / 1]]).
Proof. reflexivity. Qed.
Print Assumptions C38_vectors.
Print Assumptions C38_unit_partial.
Print Assumptions C38_refuted_initial.
Print Assumptions C38_failure_leaks.

(** ** C39 *)
(** the objective of solve: the last local constraint plus the global ones *)
Theorem C39_objective : forall local global, solve_objective local global =
  last (map (fun cj => sum_over cj (fun t => fst t * snd t)) (concat local)) 0 + sum_over global (fun cj => sum_over cj (fun t => fst t * snd t)).
Proof. exact solve_value. Qed.
(** this is the total if only the very last local constraint has terms *)
Theorem C39_total_partial : forall front pre lst global, Forall (fun cj => cj = []) (concat front) -> Forall (fun cj => cj = []) pre ->
  solve_objective (front ++ [pre ++ [lst]]) global = total (front ++ [pre ++ [lst]]) global.
Proof. intros front pre lst global H1 H2. now apply solve_only_last. Qed.
(** not in general: two points with one objective each *)
Theorem C39_refuted_sum : exists local, solve_objective local [] <> total local [].
Proof. exists [[[(1, 2)]]; [[(1, 3)]]]. unfold solve_objective, total, term_sum, sum_over, sumR. cbn. lra. Qed.
Example C39_example : solve_objective [[[]]; [[]; [(2, 3)]]] [[(1, 1)]] = 7.
Proof. unfold solve_objective, term_sum, sumR. cbn. ring. Qed.
Print Assumptions C39_objective.
Print Assumptions C39_total_partial.
Print Assumptions C39_refuted_sum.
