(** C150 to C152: norm, DummyPool and the remaining grids. *)
From Verif Require Import Base ModelHarm SpecHarm ModelHelpers SpecHelpers ProofHelpers.
Open Scope R_scope.
Notation length := List.length.

(** C150: along the last axis norm gives the lengths of the vectors *)
Theorem C150_last_axis :
  forall x axis a, means axis (length (dims x)) a -> S a = length (dims x) ->
  exists b, norm x axis = Ok b /\ lengths_along x a b.
Proof. exact norm_last. Qed.
Theorem C150_scalar : forall x axis, dims x = [] -> norm x axis = Raise ValueError.
Proof. exact norm_scalar. Qed.
(** the axis is ignored, so along another axis the result is wrong *)
Theorem C150_refuted_axis_ignored : forall x axis axis', norm x axis = norm x axis'.
Proof. exact norm_axis. Qed.
Theorem C150_refuted_first_axis :
  forall x m n, dims x = [m; n] -> m <> n -> exists b, norm x 0 = Ok b /\ ~ lengths_along x 0 b.
Proof. exact norm_axis_shape. Qed.
Print Assumptions C150_last_axis.
Print Assumptions C150_scalar.
Print Assumptions C150_refuted_axis_ignored.
Print Assumptions C150_refuted_first_axis.
(** [[3, 4], [0, 2]]: norm along the first axis should be [3, sqrt(20)] *)
Definition ex_nd : nd := Nd [2; 2]%nat (fun i => match i with [0; 0]%nat => 3 | [0; 1]%nat => 4 | [1; 1]%nat => 2 | _ => 0 end).
Example ex_150 : exists b, norm ex_nd 1 = Ok b /\ item b [0%nat] = 5 /\ item b [1%nat] = 2 /\ ~ lengths_along ex_nd 0 b.
Proof.
  destruct (C150_last_axis ex_nd 1 1) as (b & E & D & V); [split; [cbn; lia|left; reflexivity]|reflexivity|].
  exists b. split; [exact E|].
  assert (V0 := V [0%nat]). assert (V1 := V [1%nat]). cbn in D. rewrite D in V0, V1.
  destruct (V0 ltac:(repeat constructor)) as [P0 Q0]. destruct (V1 ltac:(repeat constructor)) as [P1 Q1]. cbn in Q0, Q1.
  assert (E0 : item b [0%nat] = 5) by nra. assert (E1 : item b [1%nat] = 2) by nra. split; [exact E0|]. split; [exact E1|].
  intros [_ W]. rewrite D in W. destruct (W [0%nat] ltac:(repeat constructor)) as [_ W0]. cbn in W0. rewrite E0 in W0. lra.
Qed.

(** C151: in a program that gets each result once, in the order of the
    submissions, and changes nothing itself in between, DummyPool returns
    the values, and leaves the state, of a pool that runs every call at its
    submission; however submissions and gets are interleaved. *)
Theorem C151_in_order :
  forall (S A : Type) (ops : list (op S A)) s, valid 0 ops -> only_pool ops -> gets ops = seq 0 (length (submitted ops)) ->
  dummy_pool ops [] s = pool ops [] s.
Proof. exact @eager_in_order. Qed.
(** calls without effects: every program *)
Theorem C151_pure :
  forall (S A : Type) (ops : list (op S A)) s, (forall t, In t (submitted ops) -> pure t) ->
  dummy_pool ops [] s = pool ops [] s.
Proof. exact @pure_same. Qed.
(** exactly what happens: the calls are made at the gets, once for each, and
    never for a handle that is not got *)
Theorem C151_lazy :
  forall (S A : Type) (d : call S A) (ops : list (op S A)) s, valid 0 ops -> only_pool ops ->
  dummy_pool ops [] s = run_calls (map (fun n => nth n (submitted ops) d) (gets ops)) s.
Proof. exact @lazy_calls. Qed.
(** so without the order, with a second get, without a get, or with a change
    in between DummyPool differs from a pool *)
Theorem C151_refuted :
  exists (add : nat -> call nat nat), 
  dummy_pool [Submit (add 1%nat)] [] 0%nat = ([], 0%nat) /\ pool [Submit (add 1%nat)] [] 0%nat = ([], 1%nat) /\
  dummy_pool [Submit (add 1%nat); Get 0; Get 0] [] 0%nat = ([1; 2]%nat, 2%nat) /\
  pool [Submit (add 1%nat); Get 0; Get 0] [] 0%nat = ([1; 1]%nat, 1%nat) /\
  dummy_pool [Submit (add 1%nat); Submit (add 10%nat); Get 1; Get 0] [] 0%nat = ([10; 11]%nat, 11%nat) /\
  pool [Submit (add 1%nat); Submit (add 10%nat); Get 1; Get 0] [] 0%nat = ([11; 1]%nat, 11%nat) /\
  dummy_pool [Submit (add 1%nat); Other (fun s => s * 2)%nat; Get 0] [] 1%nat = ([3]%nat, 3%nat) /\
  pool [Submit (add 1%nat); Other (fun s => s * 2)%nat; Get 0] [] 1%nat = ([2]%nat, 4%nat).
Proof. exists (fun k s => (s + k, s + k)%nat). repeat split. Qed.
(** a method called through apply_method and a pool *)
Theorem C151_apply_method :
  forall (S Args A : Type) (methods : string -> option (Args -> call S A)) raise_ name args m s,
  methods name = Some m ->
  dummy_pool [Submit (apply_method methods raise_ name args); Get 0] [] s = ([fst (m args s)], snd (m args s)).
Proof. intros S Args A methods raise_ name args m s H. unfold apply_method. cbn. rewrite H. destruct (m args s). reflexivity. Qed.
Theorem C151_apply_method_unknown :
  forall (Args A : Type) (methods : string -> option (Args -> A)) raise_ name args,
  methods name = None -> apply_method methods raise_ name args = raise_ AttributeError.
Proof. intros Args A methods raise_ name args H. unfold apply_method. rewrite H. reflexivity. Qed.
Print Assumptions C151_in_order.
Print Assumptions C151_pure.
Print Assumptions C151_lazy.
Print Assumptions C151_refuted.
Print Assumptions C151_apply_method.
Print Assumptions C151_apply_method_unknown.
Definition ex_add (k : nat) : call nat nat := fun s => (s + k, s + k)%nat.
Definition ex_ops : list (op nat nat) := [Submit (ex_add 1); Submit (ex_add 10); Get 0; Submit (ex_add 100); Get 1; Get 2].
Example ex_151 : dummy_pool ex_ops [] 0%nat = pool ex_ops [] 0%nat /\ pool ex_ops [] 0%nat = ([1; 11; 111]%nat, 111%nat).
Proof.
  split; [|reflexivity]. apply C151_in_order; [cbn; lia| |reflexivity].
  intros f H. cbn in H. repeat (destruct H as [H|H]; [discriminate|]). exact H.
Qed.

(** C152 *)
Theorem C152_unstructured :
  forall p n, length p = 3%nat -> List.Forall (fun r => length r = n) p ->
  exists g, unstructured_init (inr p) = Ok g /\ unstructured_shape g = [n] /\ length (unstructured_to_points g) = n /\
  forall i, (i < n)%nat -> nth_error (unstructured_to_points g) i =
    Some [nth i (nth 0 p []) 0; nth i (nth 1 p []) 0; nth i (nth 2 p []) 0].
Proof. exact unstructured_ok. Qed.
Theorem C152_unstructured_errors :
  forall p, (length (atleast_2d p) <> 3%nat -> unstructured_init p = Raise AssertionError) /\
  forall g, unstructured_init p = Ok g -> unstructured_to_mgrid g = Raise TypeError.
Proof. intros p. split; [apply unstructured_bad|reflexivity]. Qed.
(** the points of a SphericalGrid, in order, lie on the spheres of radius r
    around the origins, at the Gauss-Legendre points and equal azimuths *)
Theorem C152_spherical :
  forall p_roots lpmn ipow junk origins r n xs ws, p_roots n = Ok (xs, ws) -> signs ipow ->
  (forall i, (i < n)%nat -> -1 <= nth i xs 0 <= 1) -> (0 < n)%nat ->
  exists g, spherical_grid p_roots lpmn ipow junk origins r n = Ok g /\
    sg_shape g = [length origins; n; 2 * n]%nat /\ length (sphere_to_points g) = (length origins * (n * (2 * n)))%nat /\
    forall o i j, (o < length origins)%nat -> (i < n)%nat -> (j < 2 * n)%nat ->
    exists p, nth_error (sphere_to_points g) ((o * n + i) * (2 * n) + j) = Some p /\
      p = (sg_xyz g 0%nat o i j, sg_xyz g 1%nat o i j, sg_xyz g 2%nat o i j) /\
      dist2 p (nth o origins (0, 0, 0)) = r ^ 2 /\
      p = (let '(x, y, z) := nth o origins (0, 0, 0) in let c := nth i xs 0 in let phi := PI * INR j / INR n in
           (x + r * sqrt (1 - c ^ 2) * cos phi, y + r * sqrt (1 - c ^ 2) * sin phi, z + r * c)).
Proof. exact sphere_ok. Qed.
(** with numpy 1.12 or later no SphericalGrid with n > 1 can be made *)
Theorem C152_refuted_modern :
  forall p_roots lpmn ipow junk origins r n xs ws, p_roots n = Ok (xs, ws) -> signs_modern ipow -> (2 <= n)%nat ->
  spherical_grid p_roots lpmn ipow junk origins r n = Raise ValueError.
Proof. exact sphere_modern. Qed.
Print Assumptions C152_unstructured.
Print Assumptions C152_unstructured_errors.
Print Assumptions C152_spherical.
Print Assumptions C152_refuted_modern.
Example ex_152_unstructured : exists g, unstructured_init (inr [[1; 4]; [2; 5]; [3; 6]]) = Ok g /\
  nth_error (unstructured_to_points g) 1 = Some [4; 5; 6].
Proof.
  destruct (C152_unstructured [[1; 4]; [2; 5]; [3; 6]] 2) as (g & E & _ & _ & P); [reflexivity|repeat constructor|].
  exists g. split; [exact E|]. rewrite P by lia. reflexivity.
Qed.
Example ex_152_one_point : unstructured_init (inl [1; 2; 3]) = Raise AssertionError.
Proof. apply C152_unstructured_errors. cbn. lia. Qed.
(** two origins, n = 1: the node 0 of weight 2, azimuths 0 and pi *)
Example ex_152 : exists g, spherical_grid (fun _ => Ok ([0], [2])) (fun _ _ _ => 1) (fun e => Ok ((-1) ^ Z.abs_nat e)) (fun _ _ => (0, 0)%Z)
    [(0, 0, 0); (1, 2, 3)] 5 1 = Ok g /\ nth_error (sphere_to_points g) 3 = Some (-4, 2, 3).
Proof.
  destruct (C152_spherical (fun _ => Ok ([0], [2])) (fun _ _ _ => 1) (fun e => Ok ((-1) ^ Z.abs_nat e)) (fun _ _ => (0, 0)%Z)
    [(0, 0, 0); (1, 2, 3)] 5 1 [0] [2]) as (g & E & _ & _ & P).
  - reflexivity.
  - intros e _. reflexivity.
  - intros [|i] Hi; [cbn; lra|lia].
  - lia.
  - exists g. split; [exact E|]. destruct (P 1%nat 0%nat 1%nat ltac:(cbn; lia) ltac:(lia) ltac:(lia)) as (p & Ep & _ & _ & Q).
    cbn [Nat.mul Nat.add] in Ep. rewrite Ep. rewrite Q. cbn [nth]. cbv zeta. replace (PI * INR 1 / INR 1) with PI by (cbn; field).
    replace (1 - 0 ^ 2) with 1 by ring. rewrite sqrt_1, cos_PI, sin_PI. f_equal. f_equal; [f_equal|]; ring.
Qed.
