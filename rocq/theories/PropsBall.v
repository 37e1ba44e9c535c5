(** C161: what dragging the trackball does. *)
From Coq Require Import Lra.
From Verif Require Import Base SpecTensor ModelTrans SpecTrans SpecBall ProofTrans ProofBall ProofBall2.
Open Scope R_scope.

(** C161: whatever the cursor did in between, a drag from the point over [v] to
    the point over [w] turns the ball from [v] towards [w] by twice the angle *)
Theorem C161_drag : forall b p ps p' v w q, (ab_constrain b = false \/ ab_axes b = None) ->
  map_to_sphere p (ab_center b) (ab_radius b) = Ok v -> map_to_sphere p' (ab_center b) (ab_radius b) = Ok w ->
  ab_qnow b = Some q -> unit_quat q ->
  exists m0 m, arcball_matrix b = Some m0 /\ arcball_matrix (arcball_run (Down p :: map Drag ps ++ [Drag p']) b) = Some m /\
  (/ 2 ^ 50 <= inner 3 (cross_spec v w) (cross_spec v w) -> forall u i, (i < 3)%nat -> turns m u i = turned v w (turns m0 u) i) /\
  (inner 3 (cross_spec v w) (cross_spec v w) < / 2 ^ 50 -> m = m0).
Proof. exact trackball. Qed.
(** after place() this is with the centre and radius given *)
Theorem C161_place : forall b c r p ps p' v w q, (ab_constrain b = false \/ ab_axes b = None) ->
  map_to_sphere p c r = Ok v -> map_to_sphere p' c r = Ok w -> ab_qnow b = Some q -> unit_quat q ->
  exists m0 m, arcball_matrix b = Some m0 /\ arcball_matrix (arcball_run (Place c r :: Down p :: map Drag ps ++ [Drag p']) b) = Some m /\
  (/ 2 ^ 50 <= inner 3 (cross_spec v w) (cross_spec v w) -> forall u i, (i < 3)%nat -> turns m u i = turned v w (turns m0 u) i) /\
  (inner 3 (cross_spec v w) (cross_spec v w) < / 2 ^ 50 -> m = m0).
Proof. intros b c r. exact (trackball (arcball_place c r b)). Qed.
(** back at the point where it began, the drag has changed nothing *)
Theorem C161_back : forall b p ps q, (ab_constrain b = false \/ ab_axes b = None) -> ab_radius b <> 0 -> ab_qnow b = Some q ->
  arcball_matrix (arcball_run (Down p :: map Drag ps ++ [Drag p]) b) = arcball_matrix b.
Proof. exact there_and_back. Qed.
(** with constraints the ball turns about one of the axes given *)
Theorem C161_axis : forall b p ps p' q l, ab_constrain b = true -> ab_axes b = Some (map funit l) -> Forall good_axis l -> l <> [] ->
  ab_radius b <> 0 -> ab_qnow b = Some q -> unit_quat q ->
  exists a m0 m d, In a l /\
  arcball_matrix b = Some m0 /\ arcball_matrix (arcball_run (Down p :: map Drag ps ++ [Drag p']) b) = Some m /\
  proper_rotation d /\ (forall i, (i < 3)%nat -> turns d a i = a i) /\
  forall u i, (i < 3)%nat -> turns m u i = turns d (turns m0 u) i.
Proof. exact trackball_axes. Qed.
(** next() repeats the turn of the last drag *)
Theorem C161_next : forall b pt p, ab_radius b <> 0 -> ab_qnow b = Some p -> unit_quat p ->
  forall n, ab_qnow (arcball_run [Drag pt] b) = Some n -> unit_quat n ->
  exists m0 m1 m2, arcball_matrix b = Some m0 /\ arcball_matrix (arcball_run [Drag pt] b) = Some m1 /\ arcball_matrix (arcball_run [Drag pt; Next 0] b) = Some m2 /\
  (/ 2 ^ 50 <= 1 - Rabs (inner 4 p n) -> forall u i, (i < 3)%nat -> turns m2 u i = turns m1 (turns (transpose m0) (turns m1 u)) i).
Proof. exact next_repeats. Qed.
Print Assumptions C161_drag.
Print Assumptions C161_place.
Print Assumptions C161_back.
Print Assumptions C161_axis.
Print Assumptions C161_next.

(** a quarter of the rim, and the ball has made half a turn about z *)
Definition ex_161_ball : arcball := Arcball None None 1 (0, 0) (Some (vec3 0 0 1)) false (Some (vec4 1 0 0 0)) (Some (vec4 1 0 0 0)) (Some (vec4 1 0 0 0)).
Lemma ex_161_right : map_to_sphere (1, 0) (0, 0) 1 = Ok (vec3 (1 / 1) (0 / 1) (sqrt 0)).
Proof.
  unfold map_to_sphere. destruct (Req_EM_T 1 0); [lra|]. cbn [fst snd]. cbv zeta.
  replace (0 - 0) with 0 by ring. replace (1 - 0) with 1 by ring. destruct (Rlt_dec 1 _) as [L|_]; [exfalso; revert L; apply Rle_not_lt; lra|].
  do 2 f_equal. f_equal. lra.
Qed.
Lemma ex_161_top : map_to_sphere (0, - 1) (0, 0) 1 = Ok (vec3 (0 / 1) (1 / 1) (sqrt 0)).
Proof.
  unfold map_to_sphere. destruct (Req_EM_T 1 0); [lra|]. cbn [fst snd]. cbv zeta.
  replace (0 - 0) with 0 by ring. replace (0 - - 1) with 1 by ring. destruct (Rlt_dec 1 _) as [L|_]; [exfalso; revert L; apply Rle_not_lt; lra|].
  do 2 f_equal. f_equal. lra.
Qed.
Example ex_161 : exists m, arcball_matrix (arcball_run [Down (1, 0); Drag (5, 5); Drag (0, - 1)] ex_161_ball) = Some m /\
  turns m (vec3 1 2 3) 0%nat = - 1 /\ turns m (vec3 1 2 3) 1%nat = - 2 /\ turns m (vec3 1 2 3) 2%nat = 3.
Proof.
  assert (U : unit_quat (vec4 1 0 0 0)) by (unfold unit_quat, inner; cbn; ring).
  destruct (C161_drag ex_161_ball (1, 0) [(5, 5)] (0, - 1) _ _ _ (or_introl eq_refl) ex_161_right ex_161_top eq_refl U) as (m0 & m & M0 & M & T & _).
  exists m. split; [exact M|]. rewrite sqrt_0 in T. specialize (T ltac:(unfold inner; cbn; pose proof eps_le1; lra)).
  assert (I : forall k, (k < 3)%nat -> turns m0 (vec3 1 2 3) k = vec3 1 2 3 k).
  { intros k Hk. cbn in M0. injection M0 as <-. unfold turns. pose proof (qmatrix_acts _ (vec3 1 2 3) (unit_self _ U) (Datatypes.S k) ltac:(lia)) as A. rewrite U in A.
    unfold vscale in A. destruct k as [|[|[|k]]]; [..|lia]; cbn in A |- *; lra. }
  rewrite !T by lia. unfold turned, reflected, inner. cbn [vsum]. rewrite !I by lia. cbn. lra.
Qed.
Example ex_161_axis : let b := arcball_run [SetAxes [vec3 1 1 0; vec3 (- 1) 1 0]; Constrain true] ex_161_ball in
  ab_constrain b = true /\ ab_axes b = Some (map funit [vec3 1 1 0; vec3 (- 1) 1 0]) /\ Forall good_axis [vec3 1 1 0; vec3 (- 1) 1 0] /\ ab_radius b <> 0 /\
  ab_qnow b = Some (vec4 1 0 0 0).
Proof.
  cbv zeta. split; [reflexivity|]. split; [reflexivity|]. split; [|split; [cbn; lra|reflexivity]].
  repeat constructor; intros (A & _ & _); cbn in A; lra.
Qed.
(** from 1 to i: the turn is not small, and next() gives -1, a full turn after a half *)
Example ex_161_next : eps <= 1 - Rabs (inner 4 (vec4 1 0 0 0) (vec4 0 1 0 0)) /\
  forall k, (k < 4)%nat -> quaternion_slerp (vec4 1 0 0 0) (vec4 0 1 0 0) 2 0 true k = vec4 (- 1) 0 0 0 k.
Proof.
  assert (Z : inner 4 (vec4 1 0 0 0) (vec4 0 1 0 0) = 0) by (unfold inner; cbn; ring).
  assert (E : eps <= 1 - Rabs (inner 4 (vec4 1 0 0 0) (vec4 0 1 0 0))) by (rewrite Z, Rabs_R0; pose proof eps_le1; lra).
  split; [exact E|]. intros k Hk. rewrite slerp_2 by (try assumption; unfold unit_quat, inner; cbn; ring). rewrite Z. destruct k as [|[|[|[|k]]]]; [..|lia]; cbn; ring.
Qed.
