(** C100-C105: the classes of electrode/constraints.py.  Statements use
    SpecClassic; the model is ModelClassic. *)
From Verif Require Import Base ModelUtils ModelField ModelCons ModelClassic SpecTensor SpecField SpecCons SpecClassic ProofClassic ProofClassic2 ProofClassic3.
Open Scope R_scope.
Notation length := List.length.

(** ** C100: weight zero is a constraint, a positive weight an objective *)
Theorem C100_constraint : forall equal (values : gen value) st st' vs V, values st = (st', Ok vs) ->
  (equal = true -> Forall is_affine vs) ->
  (fulfils V (snd (constraints 0 equal values st)) <-> forall v x, In v vs -> In x (val v V) -> if equal then x = 0 else x <= 0) /\
  silent (snd (objective 0 values st)).
Proof.
  intros equal values st st' vs V E A. split; [exact (constraints_says equal values st st' vs V E A)|].
  rewrite not_objective by apply Rle_refl. reflexivity.
Qed.
Theorem C100_objective : forall weight equal (values : gen value) st st' vs V, 0 < weight -> values st = (st', Ok vs) ->
  Forall is_fn vs ->
  objective_value V (snd (objective weight values st)) = Some (weight * sum_over vs (fun v => sum_over (val v V) (fun x => x))) /\
  silent (snd (constraints weight equal values st)).
Proof.
  intros weight equal values st st' vs V W E F. split; [exact (objective_says weight values st st' vs V W E F)|].
  rewrite not_constraint by lra. reflexivity.
Qed.
Theorem C100_negative_weight : forall weight equal (values : gen value) st, weight < 0 ->
  constraints weight equal values st = (st, Ok []) /\ objective weight values st = (st, Ok []).
Proof. intros weight equal values st W. split; [apply not_constraint|apply not_objective]; lra. Qed.
(** no other exceptions: a convex value (a bound on a magnitude) cannot be set equal to zero *)
Theorem C100_refuted_equal : forall m ov b index st k0,
  (forall k, (k < length st)%nat -> shaped m (nth k st no_pots)) -> indices_ok (length st) index ->
  selected (length st) index k0 ->
  exists e, snd (constraints 0 true (single_index index (force_single m ov (Some b) None)) st) = Raise e.
Proof. exact force_equal_raises. Qed.
Definition ex_values : gen value := fun st => (st, Ok [VFn (Fn (fun V => [nth 0 (nth 0 V []) 0 - 1; nth 1 (nth 0 V []) 0]) true)]).
Example C100_example : Forall is_affine [VFn (Fn (fun V => [nth 0 (nth 0 V []) 0 - 1; nth 1 (nth 0 V []) 0]) true)] /\
  fulfils [[1; 0]] (snd (constraints 0 true ex_values [])) /\ ~ fulfils [[1; 2]] (snd (constraints 0 true ex_values [])) /\
  objective_value [[5; 2]] (snd (objective 3 ex_values [])) = Some 18.
Proof.
  split; [repeat constructor|].
  pose proof (fun V => proj1 (C100_constraint true ex_values [] [] _ V eq_refl ltac:(intros _; repeat constructor))) as H. split; [|split].
  - apply H. intros v x [<-|[]] Hx. cbn in Hx. destruct Hx as [<-|[<-|[]]]; lra.
  - intros F. apply (proj1 (H _)) with (x := 2) (v := VFn (Fn (fun V => [nth 0 (nth 0 V []) 0 - 1; nth 1 (nth 0 V []) 0]) true)) in F; [lra|left; reflexivity|right; left; reflexivity].
  - rewrite (proj1 (C100_objective 3 true ex_values [] [] _ [[5; 2]] ltac:(lra) eq_refl ltac:(repeat constructor))).
    f_equal. unfold sum_over. cbn. ring.
Qed.

(** ** C101: SymmetryConstraint *)
Theorem C101_symmetry : forall m symmetry index st V,
  (forall a b, In (a, b) symmetry -> (a < Z.of_nat m /\ b < Z.of_nat m)%Z) -> indices_ok (length st) index ->
  (fulfils V (snd (constraints 0 true (single_index index (symmetry_single m symmetry)) st)) <->
   forall k a b, selected (length st) index k -> In (a, b) symmetry -> voltage V k a = voltage V k b).
Proof. exact symmetry_ok. Qed.
(** a row of two grounded electrodes leaves python booleans in the list of constraints *)
Theorem C101_refuted_constraints_only : forall m a b p, (a < 0)%Z -> (b < 0)%Z ->
  snd (constraints 0 true (single_index None (symmetry_single m [(a, b)])) [p]) = Ok [PyBool true; PyBool true].
Proof. exact two_grounded. Qed.
Example C101_example : (forall a b, In (a, b) [(0, 2); (1, -1)]%Z -> (a < Z.of_nat 3 /\ b < Z.of_nat 3)%Z) /\
  indices_ok (length [no_pots; no_pots]) (Some [-1]%Z) /\
  fulfils [[1; 1; 1]; [4; 0; 4]] (snd (constraints 0 true (single_index (Some [-1]%Z) (symmetry_single 3 [(0, 2); (1, -1)]%Z)) [no_pots; no_pots])) /\
  ~ fulfils [[1; 1; 1]; [4; 5; 4]] (snd (constraints 0 true (single_index (Some [-1]%Z) (symmetry_single 3 [(0, 2); (1, -1)]%Z)) [no_pots; no_pots])).
Proof.
  assert (A : forall a b, In (a, b) [(0, 2); (1, -1)]%Z -> (a < Z.of_nat 3 /\ b < Z.of_nat 3)%Z).
  { intros a b [[= <- <-]|[[= <- <-]|[]]]; lia. }
  assert (B : indices_ok (length [no_pots; no_pots]) (Some [-1]%Z)).
  { intros l i [= <-] [<-|[]]. cbn [length]. lia. }
  split; [exact A|]. split; [exact B|]. split.
  - apply (C101_symmetry 3 _ _ _ _ A B). intros k a b (i & [<-|[]] & Hk & Hi) Hab. assert (k = 1)%nat as -> by (cbn [length] in *; lia).
    destruct Hab as [[= <- <-]|[[= <- <-]|[]]]; reflexivity.
  - intros F. apply (proj1 (C101_symmetry 3 _ _ _ _ A B)) with (k := 1%nat) (a := 1%Z) (b := (-1)%Z) in F.
    + change (5 = 0) in F. lra.
    + exists (-1)%Z. split; [left; reflexivity|]. unfold at_index. cbn [length]. lia.
    + right. left. reflexivity.
Qed.

(** ** C102: PotentialConstraint *)
Theorem C102_potential : forall m ov pmin pmax index st V,
  (forall k, (k < length st)%nat -> shaped m (nth k st no_pots)) -> indices_ok (length st) index ->
  (fulfils V (snd (constraints 0 false (single_index index (potential_single m ov pmin pmax)) st)) <->
   forall k, selected (length st) index k -> within pmin pmax (total_potential ov (nth k st no_pots) (nth k V []))).
Proof. exact potential_ok. Qed.
Definition ex_pots : pots := Pots 1 (fun a => INR a) (fun _ _ => 0) [2; 0; 1] (fun a => [1; INR a; 0]) (fun _ _ => [1; 1; 1]).
Example C102_example : (forall k, (k < length [ex_pots])%nat -> shaped 3 (nth k [ex_pots] no_pots)) /\ indices_ok (length [ex_pots]) None /\
  fulfils [[1; 7; 2]] (snd (constraints 0 false (single_index None (potential_single 3 false (Some 5) (Some 6))) [ex_pots])) /\
  ~ fulfils [[2; 7; 2]] (snd (constraints 0 false (single_index None (potential_single 3 false (Some 5) (Some 6))) [ex_pots])).
Proof.
  assert (A : forall k, (k < length [ex_pots])%nat -> shaped 3 (nth k [ex_pots] no_pots)).
  { intros [|k] Hk; [repeat split|cbn [length] in Hk; lia]. }
  assert (B : indices_ok (length [ex_pots]) None) by (intros l i [=]).
  split; [exact A|]. split; [exact B|]. split.
  - apply (C102_potential 3 _ _ _ _ _ _ A B). intros k Hk. assert (k = 0)%nat as -> by (cbn in Hk; lia).
    unfold within, total_potential, offset, ex_pots, dot. cbn. split; intros ? [= <-]; lra.
  - intros F. apply (proj1 (C102_potential 3 _ _ _ _ _ _ A B)) with (k := 0%nat) in F; [|cbn; lia].
    destruct F as [_ F]. specialize (F 6 eq_refl). unfold total_potential, offset, ex_pots, dot in F. cbn in F. lra.
Qed.

(** ** C103: ForceConstraint *)
Theorem C103_bound : forall m ov b index st V,
  (forall k, (k < length st)%nat -> shaped m (nth k st no_pots)) -> indices_ok (length st) index ->
  (fulfils V (snd (constraints 0 false (single_index index (force_single m ov (Some b) None)) st)) <->
   forall k a, selected (length st) index k -> (a < 3)%nat ->
     Rabs (total_force ov (nth k st no_pots) (nth k V []) a) <= b a).
Proof. exact force_ok. Qed.
Theorem C103_zero : forall m ov index st V,
  (forall k, (k < length st)%nat -> shaped m (nth k st no_pots)) -> indices_ok (length st) index ->
  (fulfils V (snd (constraints 0 true (single_index index (force_single m ov None None)) st)) <->
   forall k a, selected (length st) index k -> (a < 3)%nat -> total_force ov (nth k st no_pots) (nth k V []) a = 0).
Proof. exact force_zero_ok. Qed.
(** in turned axes: raises unless there are three electrodes ... *)
Theorem C103_refuted_coord_raises : forall m ov fmax r equal index st k0, m <> 3%nat ->
  (forall k, (k < length st)%nat -> shaped m (nth k st no_pots)) -> indices_ok (length st) index ->
  selected (length st) index k0 ->
  snd (constraints 0 equal (single_index index (force_single m ov fmax (Some r))) st) = Raise ValueError.
Proof. exact force_coord_raises. Qed.
(** ... and then does not bound the force along these axes *)
Theorem C103_refuted_coord : exists r st V b, orthogonal r /\ shaped 3 (nth 0 st no_pots) /\ length st = 1%nat /\
  fulfils V (snd (constraints 0 false (single_index None (force_single 3 false (Some b) (Some r))) st)) /\
  ~ (forall a, (a < 3)%nat -> Rabs (force_in r (total_force false (nth 0 st no_pots) (nth 0 V [])) a) <= b a).
Proof. exact force_coord_wrong. Qed.
(** what three electrodes do get bounded in turned axes: the force of the fixed
    electrodes along these axes and, unturned, the force of the others at turned
    voltages *)
Theorem C103_coord_three : forall ov b r index st V,
  (forall k, (k < length st)%nat -> shaped 3 (nth k st no_pots)) -> indices_ok (length st) index ->
  (fulfils V (snd (constraints 0 false (single_index index (force_single 3 ov (Some b) (Some r))) st)) <->
   forall k a, selected (length st) index k -> (a < 3)%nat ->
     Rabs (force_in r (fun a => offset ov (f0 (nth k st no_pots) a)) a + dot (fv (nth k st no_pots) a) (turned r (nth k V []))) <= b a).
Proof. exact force_coord. Qed.
Example C103_example :
  fulfils [[-1; 1; 9]] (snd (constraints 0 false (single_index None (force_single 3 false (Some (fun _ => 3)) None)) [ex_pots])) /\
  ~ fulfils [[-1; 2; 9]] (snd (constraints 0 false (single_index None (force_single 3 false (Some (fun _ => 3)) None)) [ex_pots])).
Proof.
  destruct C102_example as (A & B & _ & _). split.
  - apply (C103_bound 3 _ _ _ _ _ A B). intros k a Hk Ha. assert (k = 0)%nat as -> by (cbn in Hk; lia).
    unfold total_force, offset, ex_pots, dot. destruct a as [|[|[|a]]]; [| | |lia]; cbn; apply Rabs_le; lra.
  - intros F. apply (proj1 (C103_bound 3 _ _ _ _ _ A B)) with (k := 0%nat) (a := 2%nat) in F; [|cbn; lia|lia].
    unfold total_force, offset, ex_pots, dot in F. cbn in F. pose proof (Rle_abs (1 + 1 + (1 * -1 + ((1 + 1) * 2 + (0 * 9 + 0))))). lra.
Qed.

(** a quarter turn: the force of the fixed electrodes is [(-1, 0, 2)] in the turned axes *)
Example C103_example_coord :
  fulfils [[0; -1; 0]] (snd (constraints 0 false (single_index None (force_single 3 false (Some (fun _ => 2)) (Some quarter))) [ex_pots])) /\
  ~ fulfils [[0; 2; 0]] (snd (constraints 0 false (single_index None (force_single 3 false (Some (fun _ => 2)) (Some quarter))) [ex_pots])).
Proof.
  destruct C102_example as (A & B & _ & _). split.
  - apply (C103_coord_three _ _ _ _ _ _ A B). intros k a Hk Ha. assert (k = 0)%nat as -> by (cbn in Hk; lia).
    unfold force_in, turned, offset, ex_pots, dot. destruct a as [|[|[|a]]]; [| | |lia]; cbn; apply Rabs_le; lra.
  - intros F. apply (proj1 (C103_coord_three _ _ _ _ _ _ A B)) with (k := 0%nat) (a := 2%nat) in F; [|cbn; lia|lia].
    revert F. unfold force_in, turned, offset, ex_pots, dot. cbn.
    match goal with |- Rabs ?u <= _ -> _ => pose proof (Rle_abs u); pose proof (Rle_abs (- u)) as G; rewrite Rabs_Ropp in G end. lra.
Qed.

(** ** C104: CurvatureConstraint *)
Theorem C104_bounds : forall m ov cmin cmax index st V,
  (forall l, cmin = Some l -> length l = 6%nat) -> (forall l, cmax = Some l -> length l = 6%nat) ->
  (forall k, (k < length st)%nat -> shaped m (nth k st no_pots)) -> indices_ok (length st) index ->
  (fulfils V (snd (constraints 0 false (single_index index (curvature_single m ov cmin cmax None)) st)) <->
   forall k i, selected (length st) index k -> (i < 6)%nat ->
     within (option_map (fun l => nth i l 0) cmin) (option_map (fun l => nth i l 0) cmax)
       (total_curvature ov (nth k st no_pots) (nth k V []) (fst (upper i)) (snd (upper i)))).
Proof. exact curvature_ok. Qed.
Theorem C104_refuted_coord_raises : forall m ov cmin cmax r equal index st k0, m <> 3%nat ->
  (forall k, (k < length st)%nat -> shaped m (nth k st no_pots)) -> indices_ok (length st) index ->
  selected (length st) index k0 ->
  snd (constraints 0 equal (single_index index (curvature_single m ov cmin cmax (Some r))) st) = Raise ValueError.
Proof. exact curvature_coord_raises. Qed.
Theorem C104_refuted_coord : exists r st V b, orthogonal r /\ shaped 3 (nth 0 st no_pots) /\ length st = 1%nat /\ length b = 6%nat /\
  fulfils V (snd (constraints 0 false (single_index None (curvature_single 3 false None (Some b) (Some r))) st)) /\
  ~ (forall i, (i < 6)%nat ->
       rot r (fun ab => total_curvature false (nth 0 st no_pots) (nth 0 V []) (nth 0 ab 0%nat) (nth 1 ab 0%nat)) [fst (upper i); snd (upper i)]
       <= nth i b 0).
Proof. exact curvature_coord_wrong. Qed.
Theorem C104_coord_three : forall ov cmin cmax r index st V,
  (forall l, cmin = Some l -> length l = 6%nat) -> (forall l, cmax = Some l -> length l = 6%nat) ->
  (forall k, (k < length st)%nat -> shaped 3 (nth k st no_pots)) -> indices_ok (length st) index ->
  (fulfils V (snd (constraints 0 false (single_index index (curvature_single 3 ov cmin cmax (Some r))) st)) <->
   forall k i, selected (length st) index k -> (i < 6)%nat ->
     within (option_map (fun l => nth i l 0) cmin) (option_map (fun l => nth i l 0) cmax)
       (rot r (fun ij => offset ov (c0 (nth k st no_pots) (nth 0 ij 0%nat) (nth 1 ij 0%nat))) [fst (upper i); snd (upper i)] +
        force_in r (fun j => dot (cv (nth k st no_pots) (fst (upper i)) j) (turned r (nth k V []))) (snd (upper i)))).
Proof. exact curvature_coord. Qed.
Example C104_example :
  fulfils [[1; 1; -2]] (snd (constraints 0 false (single_index None (curvature_single 3 false (Some [0; 0; 0; 0; 0; 0]) (Some [1; 1; 1; 1; 1; 1]) None)) [ex_pots])) /\
  ~ fulfils [[1; 1; -3]] (snd (constraints 0 false (single_index None (curvature_single 3 false (Some [0; 0; 0; 0; 0; 0]) (Some [1; 1; 1; 1; 1; 1]) None)) [ex_pots])).
Proof.
  destruct C102_example as (A & B & _ & _).
  assert (L : forall x l, Some [x; x; x; x; x; x] = Some l -> length (A := R) l = 6%nat) by (intros x l [= <-]; reflexivity). split.
  - apply (C104_bounds 3 _ _ _ _ _ _ (L 0) (L 1) A B). intros k i Hk Hi. assert (k = 0)%nat as -> by (cbn in Hk; lia).
    unfold within, total_curvature, offset, ex_pots, dot.
    destruct i as [|[|[|[|[|[|i]]]]]]; try lia; cbn; (split; intros ? [= <-]; lra).
  - intros F. apply (proj1 (C104_bounds 3 _ _ _ _ _ _ (L 0) (L 1) A B)) with (k := 0%nat) (i := 0%nat) in F; [|cbn; lia|lia].
    destruct F as [F _]. specialize (F 0 eq_refl). unfold total_curvature, offset, ex_pots, dot in F. cbn in F. lra.
Qed.

Example C104_example_coord :
  fulfils [[1; 0; 0]] (snd (constraints 0 false (single_index None (curvature_single 3 false None (Some [1; 1; 1; 1; 1; 1]) (Some quarter))) [ex_pots])) /\
  ~ fulfils [[1; 3; 0]] (snd (constraints 0 false (single_index None (curvature_single 3 false None (Some [1; 1; 1; 1; 1; 1]) (Some quarter))) [ex_pots])).
Proof.
  destruct C102_example as (A & B & _ & _).
  assert (L : forall l, Some [1; 1; 1; 1; 1; 1] = Some l -> length (A := R) l = 6%nat) by (intros l [= <-]; reflexivity).
  assert (N : forall l : list R, None = Some l -> length l = 6%nat) by (intros l [=]). split.
  - apply (C104_coord_three _ _ _ _ _ _ _ N L A B). intros k i Hk Hi. assert (k = 0)%nat as -> by (cbn in Hk; lia).
    unfold within, force_in, turned, offset, ex_pots, dot.
    destruct i as [|[|[|[|[|[|i]]]]]]; try lia; cbn; (split; intros ? [= <-]; lra).
  - intros F. apply (proj1 (C104_coord_three _ _ _ _ _ _ _ N L A B)) with (k := 0%nat) (i := 1%nat) in F; [|cbn; lia|lia].
    destruct F as [_ F]. specialize (F 1 eq_refl). revert F. unfold force_in, turned, offset, ex_pots, dot. cbn. lra.
Qed.

(** ** C105: the constraints leave the data they are given alone ... *)
Theorem C105_data_kept : forall m equal weight index st,
  (forall symmetry, fst (constraints weight equal (single_index index (symmetry_single m symmetry)) st) = st) /\
  (forall pmin pmax, fst (constraints weight equal (single_index index (potential_single m false pmin pmax)) st) = st) /\
  (forall fmax coord, fst (constraints weight equal (single_index index (force_single m false fmax coord)) st) = st) /\
  (forall cmin cmax coord, fst (constraints weight equal (single_index index (curvature_single m false cmin cmax coord)) st) = st).
Proof.
  intros m equal weight index st. split; [|split; [|split]]; intros.
  - apply symmetry_keeps. - apply potential_keeps. - apply force_keeps. - apply curvature_keeps.
Qed.
(** ... but not with only_variable: the potential, force and curvature of the fixed
    electrodes are zero for every later constraint *)
Theorem C105_refuted_only_variable : forall m equal index st k,
  (forall k, (k < length st)%nat -> shaped m (nth k st no_pots)) -> indices_ok (length st) index -> selected (length st) index k ->
  (forall pmin pmax, p0 (nth k (fst (constraints 0 equal (single_index index (potential_single m true pmin pmax)) st)) no_pots) = 0) /\
  (forall fmax a, f0 (nth k (fst (constraints 0 equal (single_index index (force_single m true fmax None)) st)) no_pots) a = 0) /\
  (forall cmin cmax a b, c0 (nth k (fst (constraints 0 equal (single_index index (curvature_single m true cmin cmax None)) st)) no_pots) a b = 0).
Proof.
  intros m equal index st k A B K. split; [|split]; intros.
  - apply potential_overwrites; assumption. - apply force_overwrites; assumption. - apply curvature_overwrites; assumption.
Qed.
Example C105_example : f0 ex_pots 2 <> 0 /\ p0 ex_pots <> 0 /\ selected (length [ex_pots]) None 0.
Proof. cbn. repeat split; try lra; lia. Qed.

(** ** C106: OffsetPotentialConstraint cannot be used *)
Theorem C106_refuted_offset : forall m ov pmin pmax pref0 electrodes el_pot equal index st k0, electrodes <> [] ->
  (forall k, (k < length st)%nat -> shaped m (nth k st no_pots)) -> indices_ok (length st) index ->
  selected (length st) index k0 ->
  snd (constraints 0 equal (single_index index (offset_single m ov pmin pmax (Ok pref0) electrodes el_pot)) st) = Raise AttributeError.
Proof. exact offset_raises. Qed.
(** with no electrodes to set, it bounds the offset of the reference *)
Theorem C106_no_electrodes : forall ov pmin pmax pref0 el_pot index st V,
  (forall k, (k < length st)%nat -> shaped 0 (nth k st no_pots)) -> indices_ok (length st) index ->
  (fulfils V (snd (constraints 0 false (single_index index (offset_single 0 ov pmin pmax (Ok pref0) [] el_pot)) st)) <->
   forall k, selected (length st) index k -> within pmin pmax (offset ov (pref0 - p0 (nth k st no_pots)))).
Proof. exact offset_none. Qed.
Example C106_example : [Electrode "a" 1 0 (ECover 1)] <> [] /\ selected (length [ex_pots]) None 0.
Proof. split; [discriminate|cbn; lia]. Qed.
Example C106_example_none : let p := Pots 1 (fun _ => 0) (fun _ _ => 0) [] (fun _ => []) (fun _ _ => []) in
  (forall k, (k < length [p])%nat -> shaped 0 (nth k [p] no_pots)) /\ indices_ok (length [p]) None /\
  fulfils [[]] (snd (constraints 0 false (single_index None (offset_single 0 false (Some 1) (Some 3) (Ok 3) [] (fun _ => Ok 0))) [p])) /\
  ~ fulfils [[]] (snd (constraints 0 false (single_index None (offset_single 0 false (Some 1) (Some 3) (Ok 1) [] (fun _ => Ok 0))) [p])).
Proof.
  intros p. assert (A : forall k, (k < length [p])%nat -> shaped 0 (nth k [p] no_pots)).
  { intros [|k] Hk; [repeat split|cbn [length] in Hk; lia]. }
  assert (B : indices_ok (length [p]) None) by (intros l i [=]).
  split; [exact A|]. split; [exact B|]. split.
  - apply (C106_no_electrodes _ _ _ _ _ _ _ _ A B). intros k Hk. assert (k = 0)%nat as -> by (cbn in Hk; lia).
    unfold within, offset. cbn. split; intros ? [= <-]; lra.
  - intros F. apply (proj1 (C106_no_electrodes _ _ _ _ _ _ _ _ A B)) with (k := 0%nat) in F; [|cbn; lia].
    destruct F as [F _]. specialize (F 1 eq_refl). unfold offset in F. cbn in F. lra.
Qed.
Print Assumptions C100_constraint.
Print Assumptions C100_objective.
Print Assumptions C100_negative_weight.
Print Assumptions C100_refuted_equal.
Print Assumptions C101_symmetry.
Print Assumptions C101_refuted_constraints_only.
Print Assumptions C102_potential.
Print Assumptions C103_bound.
Print Assumptions C103_zero.
Print Assumptions C103_refuted_coord_raises.
Print Assumptions C103_refuted_coord.
Print Assumptions C103_coord_three.
Print Assumptions C104_bounds.
Print Assumptions C104_refuted_coord_raises.
Print Assumptions C104_refuted_coord.
Print Assumptions C104_coord_three.
Print Assumptions C105_data_kept.
Print Assumptions C105_refuted_only_variable.
Print Assumptions C106_refuted_offset.
Print Assumptions C106_no_electrodes.
