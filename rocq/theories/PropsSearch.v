(** Theorems for C44-C49 and C52: searches, trajectories and modes. *)
From Coq Require Import Permutation.
From Coquelicot Require Import Coquelicot.
From Verif Require Import Base ModelUtils ModelField ModelSearch SpecTensor SpecField SpecSearch ProofSearch.
Open Scope R_scope.
Notation length := List.length.

(** C44.  After any earlier calls of the three functions: the value is the
    potential at [coord . x] with [axis] replaced, the gradient is its
    gradient and the Hessian the derivative of the gradient. *)
Theorem C44_value :
  forall pot axis coord x0 history xi y, NoDup axis -> replaces axis xi x0 y ->
  value_then pot DFloat axis coord x0 history xi = pot 0%nat (mdot coord y) [].
Proof. exact value_is. Qed.
Theorem C44_gradient_matches :
  forall pot axis coord x0, distinct_axes axis ->
  forall history history' xi y i,
  replaces axis xi x0 y -> derivatives_at pot (mdot coord y) -> (i < length axis)%nat ->
  is_derive (fun t => value_then pot DFloat axis coord x0 history (with_comp xi i t)) (xi i)
    (grad_then pot DFloat axis coord x0 history' xi i).
Proof. exact gradient_matches. Qed.
Theorem C44_hessian_matches :
  forall pot axis coord x0, distinct_axes axis ->
  forall history history' xi y i j,
  replaces axis xi x0 y -> derivatives_at pot (mdot coord y) -> (i < length axis)%nat -> (j < length axis)%nat ->
  is_derive (fun t => grad_then pot DFloat axis coord x0 history (with_comp xi i t) j) (xi i)
    (hess_then pot DFloat axis coord x0 history' xi i j).
Proof. exact hessian_matches. Qed.
Theorem C44_other_coordinates_stay :
  forall pot dt axis coord x0 m y, minimum pot dt axis coord x0 m = Ok y ->
  forall k, ~ In k axis -> y k = x0 k.
Proof. exact minimum_keeps. Qed.
(** the search starts at x0: a minimizer that ends where it starts returns it *)
Theorem C44_start : forall pot axis coord x0 y, NoDup axis -> minimum pot DFloat axis coord x0 (fun xi => Done true xi) = Ok y -> forall k, y k = x0 k.
Proof. exact start_is_x0. Qed.
Print Assumptions C44_start.
Print Assumptions C44_value.
Print Assumptions C44_gradient_matches.
Print Assumptions C44_hessian_matches.
Print Assumptions C44_other_coordinates_stay.
Example C44_example : distinct_axes [0; 1; 2]%nat /\ (forall c p, derivatives_at (sys_pot c cov) p) /\
  (forall c p, sys_pot c cov 0 p [] = pz p).
Proof. split; [exact axes012|]. split; [apply cov_derivatives|apply cov0]. Qed.

(** C45.  Finding: the gradient is turned with the transposed matrix. *)
Theorem C45_gradient_symmetric_coord_partial :
  forall pot axis coord x0, distinct_axes axis ->
  (forall a b, (a < 3)%nat -> (b < 3)%nat -> coord a b = coord b a) ->
  forall history history' xi y i,
  replaces axis xi x0 y -> derivatives_at pot (mdot coord y) -> (i < length axis)%nat ->
  is_derive (fun t => snd (saddle_fun pot axis coord (safter pot axis coord x0 history) (with_comp xi i t))) (xi i)
    (snd (saddle_grad pot axis coord (safter pot axis coord x0 history') xi) i).
Proof. exact saddle_gradient_sym. Qed.
Theorem C45_gradient_is_along_rows :
  forall pot axis coord x0, distinct_axes axis ->
  forall history xi y i,
  replaces axis xi x0 y -> derivatives_at pot (mdot coord y) -> (i < length axis)%nat ->
  is_derive (fun t => pot 0%nat (along (mdot coord y) (fun k => coord (nth i axis 0%nat) k) t) []) 0
    (snd (saddle_grad pot axis coord (safter pot axis coord x0 history) xi) i).
Proof. exact saddle_gradient_is. Qed.
Theorem C45_refuted_rotations :
  exists c s coord axis x0 xi i l, orthogonal coord /\ distinct_axes axis /\ (i < length axis)%nat /\
  (forall e, In e s -> well_formed (egeom e)) /\ (forall p, derivatives_at (sys_pot c s) p) /\
  forall history history',
  is_derive (fun t => snd (saddle_fun (sys_pot c s) axis coord
                             (safter (sys_pot c s) axis coord x0 history) (with_comp xi i t))) (xi i) l /\
  snd (saddle_grad (sys_pot c s) axis coord (safter (sys_pot c s) axis coord x0 history') xi) i = - l /\ l <> 0.
Proof. exact saddle_refuted. Qed.
Theorem C45_result :
  forall pot axis coord xtol ftol maxiter dx_max eigh argsort fuel x0 x p,
  saddle pot axis coord xtol ftol maxiter dx_max eigh argsort fuel DFloat x0 = Some (Ok (x, p)) ->
  (forall k, ~ In k axis -> x k = x0 k) /\ p = pot 0%nat (mdot coord x) [].
Proof. exact saddle_result. Qed.
(** a result is the last of two places so close, or two values so close, as
    the tolerances say; otherwise, after [maxiter] steps, ValueError *)
Theorem C45_converged :
  forall pot axis coord xtol ftol maxiter dx_max eigh argsort fuel x0 x p,
  let search := rfo cvec (saddle_fun pot axis coord) (saddle_grad pot axis coord) (length axis) xtol ftol maxiter dx_max eigh argsort
                  fuel x0 (take axis x0) (Some (saddle_hess pot axis coord x0)) in
  saddle pot axis coord xtol ftol maxiter dx_max eigh argsort fuel DFloat x0 = Some (Ok (x, p)) ->
  exists l a b, fst search = l ++ [a; b] /\ pst b = x /\ pf b = p /\
  (small_step (length axis) xtol (px_ a) (px_ b) \/ small_change ftol (pf a) (pf b)).
Proof. exact saddle_converged. Qed.
Theorem C45_gives_up :
  forall pot axis coord xtol ftol maxiter dx_max eigh argsort fuel x0,
  let search := rfo cvec (saddle_fun pot axis coord) (saddle_grad pot axis coord) (length axis) xtol ftol maxiter dx_max eigh argsort
                  fuel x0 (take axis x0) (Some (saddle_hess pot axis coord x0)) in
  (snd search = Ended Iter <-> saddle pot axis coord xtol ftol maxiter dx_max eigh argsort fuel DFloat x0 = Some (Raise ValueError)) /\
  (snd search = Ended FTol \/ snd search = Ended XTol <->
   exists x p, saddle pot axis coord xtol ftol maxiter dx_max eigh argsort fuel DFloat x0 = Some (Ok (x, p))).
Proof. exact saddle_gives_up. Qed.
Print Assumptions C45_converged.
Print Assumptions C45_gives_up.
Print Assumptions C45_gradient_symmetric_coord_partial.
Print Assumptions C45_gradient_is_along_rows.
Print Assumptions C45_refuted_rotations.
Print Assumptions C45_result.
Example C45_example : distinct_axes [0; 1; 2]%nat /\ (forall c p, derivatives_at (sys_pot c cov) p) /\
  (forall a b, (a < 3)%nat -> (b < 3)%nat -> delta3 a b = delta3 b a).
Proof.
  split; [exact axes012|]. split; [apply cov_derivatives|].
  intros a b _ _. unfold delta3. now rewrite Nat.eqb_sym.
Qed.

(** C46.  [fn] and [gr] may keep a state, as long as their values are those
    of functions [F], [G] of the position. *)
Theorem C46_step_length :
  forall St fn gr n xtol ftol maxiter dx_max eigh argsort fuel (s : St) x0 h p p',
  0 < dx_max ->
  consecutive (fst (rfo St fn gr n xtol ftol maxiter dx_max eigh argsort fuel s x0 h)) p p' ->
  vnorm n (fun k => px_ p' k - px_ p k) <= dx_max.
Proof. exact rfo_step. Qed.
Theorem C46_consistent :
  forall St fn gr n xtol ftol maxiter dx_max eigh argsort F G,
  (forall s x, snd (fn s x) = F x) -> (forall s x, snd (gr s x) = G x) ->
  forall fuel (s : St) x0 h p,
  In p (fst (rfo St fn gr n xtol ftol maxiter dx_max eigh argsort fuel s x0 h)) ->
  pf p = F (px_ p) /\ forall k, pg p k = G (px_ p) k.
Proof. exact rfo_consistent. Qed.
Theorem C46_hessian_symmetric :
  forall St fn gr n xtol ftol maxiter dx_max eigh argsort fuel (s : St) x0 h p,
  (forall h0, h = Some h0 -> symmetric_mat n h0) ->
  In p (fst (rfo St fn gr n xtol ftol maxiter dx_max eigh argsort fuel s x0 h)) ->
  forall h1, ph p = Some h1 -> symmetric_mat n h1.
Proof. exact rfo_sym. Qed.
Theorem C46_secant :
  forall St fn gr n xtol ftol maxiter dx_max eigh argsort F G,
  (forall s x, snd (fn s x) = F x) -> (forall s x, snd (gr s x) = G x) ->
  forall fuel (s : St) x0 h p p' h',
  consecutive (fst (rfo St fn gr n xtol ftol maxiter dx_max eigh argsort fuel s x0 h)) p p' ->
  ph p' = Some h' -> forall i, (i < n)%nat ->
  mvec n h' (fun k => px_ p' k - px_ p k) i = G (px_ p') i - G (px_ p) i.
Proof. exact rfo_secant. Qed.
(** at most maxiter+1 iterations, so maxiter+2 positions *)
Theorem C46_iterations :
  forall St fn gr n xtol ftol maxiter dx_max eigh argsort fuel (s : St) x0 h,
  (0 < maxiter)%Z ->
  let r := rfo St fn gr n xtol ftol maxiter dx_max eigh argsort fuel s x0 h in
  (Z.of_nat (length (fst r)) <= maxiter + 2)%Z /\
  ((maxiter + 2 <= Z.of_nat fuel)%Z -> snd r <> Running).
Proof.
  intros. pose proof (loop_len St fn gr n xtol ftol maxiter dx_max eigh argsort H fuel 0%Z (rfo_start St fn gr s x0 h) ltac:(lia)) as L.
  rewrite Z.sub_0_r in L. exact L.
Qed.
Theorem C46_status :
  forall St fn gr n xtol ftol maxiter dx_max eigh argsort fuel (s : St) x0 h trace st,
  rfo St fn gr n xtol ftol maxiter dx_max eigh argsort fuel s x0 h = (trace, Ended st) ->
  exists l a b, trace = l ++ [a; b] /\
  match st with
  | XTol => small_step n xtol (px_ a) (px_ b)
  | FTol => small_change ftol (pf a) (pf b)
  | Iter => (0 < maxiter)%Z /\ Z.of_nat (length trace) = (maxiter + 2)%Z
  end.
Proof.
  intros. destruct (loop_status St fn gr n xtol ftol maxiter dx_max eigh argsort fuel 0%Z (rfo_start St fn gr s x0 h) trace st H) as (l & a & b & E & C).
  exists l, a, b. split; [exact E|]. destruct st; try exact C. destruct C as [C1 C2]. split; [exact C1|].
  destruct (C46_iterations St fn gr n xtol ftol maxiter dx_max eigh argsort fuel s x0 h C1) as [L _]. rewrite H in L. cbn [fst] in L. lia.
Qed.
(** a step goes uphill along the lowest mode and downhill along the others *)
Theorem C46_direction :
  forall St fn gr n xtol ftol maxiter dx_max eigh argsort fuel (s : St) x0 h p p' h1 l v,
  0 < dx_max ->
  consecutive (fst (rfo St fn gr n xtol ftol maxiter dx_max eigh argsort fuel s x0 h)) p p' ->
  ph p = Some h1 -> eigh h1 = (l, v) -> (forall k, (k < n)%nat -> argsort l k = k) ->
  orthonormal_columns n v -> forall k, (k < n)%nat ->
  let along_step := sumn n (fun i => v i k * (px_ p' i - px_ p i)) in
  let along_grad := sumn n (fun i => v i k * pg p i) in
  (k = 0%nat -> 0 <= along_step * along_grad /\ (along_grad <> 0 -> 0 < along_step * along_grad)) /\
  (k <> 0%nat -> along_step * along_grad <= 0 /\ (along_grad <> 0 -> along_step * along_grad < 0)).
Proof. exact rfo_direction. Qed.
Print Assumptions C46_step_length.
Print Assumptions C46_consistent.
Print Assumptions C46_hessian_symmetric.
Print Assumptions C46_secant.
Print Assumptions C46_iterations.
Print Assumptions C46_status.
Print Assumptions C46_direction.
(** one dimension, f = x^2, started at 1 with the Hessian 1: there is a step *)
Definition ex_fn (s : unit) (x : cvec) : unit * R := (s, x 0%nat ^ 2).
Definition ex_gr (s : unit) (x : cvec) : unit * cvec := (s, fun _ => 2 * x 0%nat).
Definition ex_eigh (h : mat) : cvec * mat := (fun _ => h 0%nat 0%nat, fun _ _ => 1).
Example C46_example : exists p p',
  consecutive (fst (rfo unit ex_fn ex_gr 1 0 0 5 1 ex_eigh (fun _ k => k) 2 tt (fun _ => 1) None)) p p' /\
  orthonormal_columns 1 (fun _ _ => 1).
Proof.
  unfold rfo. cbn [rfo_loop]. destruct (rfo_iter _ _ _ _ _ _ _ _ _ _ _ (rfo_start unit ex_fn ex_gr tt (fun _ => 1) None)) as [[p' r]|] eqn:E.
  - exists (rfo_start unit ex_fn ex_gr tt (fun _ => 1) None), p'. split.
    + destruct r as [r|]; [exists [], []; reflexivity|].
      destruct (rfo_iter _ _ _ _ _ _ _ _ _ _ _ p') as [[p2 r2]|]; exists [], []; reflexivity.
    + intros k j Hk Hj. replace k with 0%nat by lia. replace j with 0%nat by lia. cbn. ring.
  - exfalso. unfold rfo_iter in E. cbn [rfo_start ex_fn ex_gr ph pg] in E. unfold rfo_dx in E. cbn [ex_eigh] in E.
    unfold zero_in, is_zero in E. cbn [seq existsb Nat.eqb] in E.
    destruct (Req_EM_T _ 0) as [Z|_] in E.
    + revert Z. cbn [sumn seq map sumR]. unfold sumn. cbn [seq map sumR]. intros Z.
      pose proof (sqrt_pos (1 ^ 2 + 4 * (1 * (2 * 1) + 0) ^ 2)). rewrite Rabs_R1 in Z. lra.
    + destruct (Req_EM_T 1 0) as [Z|_] in E; [lra|]. discriminate.
Qed.

(** C47.  Finding: with integers the point is truncated, and saddle() raises. *)
Theorem C47_float_start_partial :
  forall pot axis coord x0 m b r, NoDup axis ->
  ends (fun xi => value_then pot DFloat axis coord x0 [] xi) (fun xi => grad_then pot DFloat axis coord x0 [] xi)
       (fun xi => hess_then pot DFloat axis coord x0 [] xi) (m (take axis x0)) b r ->
  match minimum pot DFloat axis coord x0 m with
  | Ok y => b = true /\ replaces axis r x0 y
  | Raise e => b = false /\ e = ValueError
  end.
Proof. exact minimum_returns. Qed.
Theorem C47_integer_start_truncates :
  forall pot axis coord x0 m b r, NoDup axis ->
  ends (fun xi => value_then pot DInt axis coord x0 [] xi) (fun xi => grad_then pot DInt axis coord x0 [] xi)
       (fun xi => hess_then pot DInt axis coord x0 [] xi) (m (take axis x0)) b r ->
  match minimum pot DInt axis coord x0 m with
  | Ok y => forall i, (i < length axis)%nat -> y (nth i axis 0%nat) = trunc (r i)
  | Raise e => e = ValueError
  end.
Proof. exact int_start_truncates. Qed.
Theorem C47_refuted_integer_start :
  exists pot axis coord x0 m r y, distinct_axes axis /\
  (forall F G H, ends F G H (m (take axis x0)) true r) /\
  minimum pot DInt axis coord x0 m = Ok y /\
  (exists i, (i < length axis)%nat /\ y (nth i axis 0%nat) <> r i).
Proof. exact int_start_refuted. Qed.
Theorem C47_saddle_integer_start_raises :
  forall pot axis coord xtol ftol maxiter dx_max eigh argsort fuel x0,
  saddle pot axis coord xtol ftol maxiter dx_max eigh argsort fuel DInt x0 = Some (Raise TypeError).
Proof. exact saddle_int. Qed.
(** truncated means towards 0 *)
Theorem C47_integer_start_toward_zero :
  forall pot axis coord x0 m b r y, NoDup axis ->
  ends (fun xi => value_then pot DInt axis coord x0 [] xi) (fun xi => grad_then pot DInt axis coord x0 [] xi)
       (fun xi => hess_then pot DInt axis coord x0 [] xi) (m (take axis x0)) b r ->
  minimum pot DInt axis coord x0 m = Ok y ->
  forall i, (i < length axis)%nat -> exists n : Z, y (nth i axis 0%nat) = IZR n /\ 0 <= IZR n * r i /\ Rabs (IZR n) <= Rabs (r i) < Rabs (IZR n) + 1.
Proof. exact int_start_toward. Qed.
Print Assumptions C47_integer_start_toward_zero.
Print Assumptions C47_float_start_partial.
Print Assumptions C47_integer_start_truncates.
Print Assumptions C47_refuted_integer_start.
Print Assumptions C47_saddle_integer_start_raises.
Example C47_example : forall F G H (m : minimizer), exists b r, ends F G H m b r.
Proof. exact ends_exists. Qed.

(** C48 *)
Theorem C48_times :
  forall tpot axis dt t1 integ x0 v0 t0 fuel,
  exists l fin, trajectory tpot axis dt t1 integ true x0 v0 t0 fuel = Ok (l, fin) /\
  (forall i d, (i < length l)%nat -> fst (fst (nth i l d)) = t0 + INR (S i) * dt) /\
  (forall i, (i < length l)%nat -> t0 + INR i * dt < t1) /\
  (fin = true -> t1 <= t0 + INR (length l) * dt).
Proof. exact traj_times. Qed.
Theorem C48_ends :
  forall tpot axis dt t1 integ x0 v0 t0, 0 < dt ->
  exists N, forall fuel, (N <= fuel)%nat ->
  exists l, trajectory tpot axis dt t1 integ true x0 v0 t0 fuel = Ok (l, true).
Proof. exact traj_ends. Qed.
(** every yield is where the integrator takes the previous one, under the
    same acceleration *)
Theorem C48_steps :
  forall tpot axis dt t1 integ x0 v0 t0 fuel l fin,
  trajectory tpot axis dt t1 integ true x0 v0 t0 fuel = Ok (l, fin) -> forall i d, (i < length l)%nat ->
  integrates (fun t q => snd (ddx tpot axis x0 t q))
    (match i with
     | O => integ t0 (t0 + dt) (take axis v0) (take axis x0)
     | S j => integ (fst (fst (nth j l d))) (fst (fst (nth j l d)) + dt) (snd (nth j l d)) (snd (fst (nth j l d)))
     end)
    (snd (nth i l d)) (snd (fst (nth i l d))).
Proof. exact traj_chain. Qed.
(** Finding: lists, which the documentation allows, are refused. *)
Theorem C48_lists_are_type_errors :
  forall tpot axis dt t1 integ x0 v0 t0 fuel,
  trajectory tpot axis dt t1 integ false x0 v0 t0 fuel = Raise TypeError.
Proof. exact traj_lists. Qed.
Print Assumptions C48_times.
Print Assumptions C48_ends.
Print Assumptions C48_steps.
Print Assumptions C48_lists_are_type_errors.

(** C49.  Finding: the sign of the acceleration is wrong. *)
Theorem C49_acceleration_is_plus_gradient :
  forall s axis x0 history t q y i, distinct_axes axis -> replaces axis q x0 y -> (i < length axis)%nat ->
  (forall e, In e s -> well_formed (egeom e)) ->
  snd (ddx (sys_tpot s) axis (tafter (sys_tpot s) axis x0 history) t q) i =
  tensor_entry s TDc 1 [nth i axis 0%nat] (vec_p3 y) + cos t * tensor_entry s TRf 1 [nth i axis 0%nat] (vec_p3 y).
Proof. exact accel_system. Qed.
Theorem C49_refuted_minus_gradient :
  exists s axis x0 q y i t, distinct_axes axis /\ (forall e, In e s -> well_formed (egeom e)) /\
  replaces axis q x0 y /\ (i < length axis)%nat /\
  snd (ddx (sys_tpot s) axis x0 t q) i <>
  - (tensor_entry s TDc 1 [nth i axis 0%nat] (vec_p3 y) + cos t * tensor_entry s TRf 1 [nth i axis 0%nat] (vec_p3 y)).
Proof. exact accel_refuted. Qed.
Print Assumptions C49_acceleration_is_plus_gradient.
Print Assumptions C49_refuted_minus_gradient.
Example C49_example : replaces [1; 0]%nat (fun i => INR i) (fun _ => 5)
  (fun k => match k with 0%nat => 1 | 1%nat => 0 | _ => 5 end).
Proof.
  split.
  - intros [|[|i]] Hi; cbn in *; try reflexivity; lia.
  - intros [|[|k]] Hk; cbn in *; try tauto; reflexivity.
Qed.

(** C52 *)
Theorem C52_sorted :
  forall eigh argsort h n ew ev, sorts n (fst (eigh h)) (argsort (fst (eigh h))) ->
  eigen_basis n h (fst (eigh h)) (snd (eigh h)) ->
  modes eigh argsort h true = (ew, ev) ->
  eigen_basis n h ew ev /\ ascending_upto n ew /\
  exists i, permutes n i /\ forall k, ew k = fst (eigh h) (i k) /\ forall r, ev r k = snd (eigh h) r (i k).
Proof. exact modes_sorted. Qed.
Theorem C52_unsorted :
  forall eigh argsort h, modes eigh argsort h false = eigh h.
Proof. exact modes_unsorted. Qed.
Print Assumptions C52_sorted.
Print Assumptions C52_unsorted.
(** diag(2, 1, 0) with an unsorted basis, to be reversed *)
Example C52_example : eigen_basis 3 (fun i j => if (i =? j)%nat then 2 - INR i else 0) (fun k => 2 - INR k) delta3 /\
  sorts 3 (fun k => 2 - INR k) (fun k => (2 - k)%nat).
Proof.
  split; [split|split].
  - intros k i Hk Hi. destruct k as [|[|[|k]]]; [..|lia]; (destruct i as [|[|[|i]]]; [..|lia]); cbn; lra.
  - intros k j Hk Hj. destruct k as [|[|[|k]]]; [..|lia]; (destruct j as [|[|[|j]]]; [..|lia]); cbn; lra.
  - unfold permutes. cbn. apply (Permutation_sym (Permutation_rev [0; 1; 2]%nat)).
  - intros i j Hij Hj. apply Rplus_le_compat_l, Ropp_le_contravar, le_INR. lia.
Qed.
