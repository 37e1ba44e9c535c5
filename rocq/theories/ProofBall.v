From Coq Require Import Nsatz.
From Verif Require Import Base SpecTensor ModelTrans SpecTrans ProofTrans ProofRigid ProofQuat.
Open Scope R_scope.
Notation length := List.length.

Lemma sphere_total p c r : r <> 0 -> exists v, map_to_sphere p c r = Ok v.
Proof. intros H. unfold map_to_sphere. destruct (Req_EM_T r 0); [contradiction|]. cbv zeta. destruct (Rlt_dec _ _); eexists; reflexivity. Qed.
Lemma sphere_zero p c : map_to_sphere p c 0 = Raise ZeroDivisionError.
Proof. unfold map_to_sphere. destruct (Req_EM_T 0 0); [reflexivity|lra]. Qed.
(** the front half of the unit sphere, over the cursor or over the nearest point of the rim *)
Lemma sphere_unit p c r v : map_to_sphere p c r = Ok v ->
  inner 3 v v = 1 /\ 0 <= v 2%nat /\ exists s, 0 < s <= 1 /\ r * v 0%nat = s * (fst p - fst c) /\ r * v 1%nat = s * (snd c - snd p) /\
  ((fst p - fst c) * (fst p - fst c) + (snd c - snd p) * (snd c - snd p) <= r * r -> s = 1).
Proof.
  unfold map_to_sphere. destruct (Req_EM_T r 0) as [|R0]; [discriminate|]. cbv zeta.
  set (a := (fst p - fst c) / r). set (b := (snd c - snd p) / r).
  assert (A : r * a = fst p - fst c) by (unfold a; field; exact R0). assert (B : r * b = snd c - snd p) by (unfold b; field; exact R0).
  rewrite <- A, <- B. clearbody a b. destruct (Rlt_dec _ _) as [H|H]; intros [= <-]; unfold inner; cbn [vsum vec3].
  - assert (S : sqrt (a * a + b * b) * sqrt (a * a + b * b) = a * a + b * b) by (apply sqrt_sqrt; nra).
    assert (P : 1 < sqrt (a * a + b * b)) by (rewrite <- sqrt_1 at 1; apply sqrt_lt_1; nra).
    set (s := sqrt (a * a + b * b)) in *. split; [|split; [lra|]].
    + replace (0 + a / s * (a / s) + b / s * (b / s) + 0 * 0) with ((a * a + b * b) / (s * s)) by (field; lra). rewrite S. field. lra.
    + exists (/ s). split; [split; [apply Rinv_0_lt_compat; lra|rewrite <- Rinv_1; apply Rinv_le_contravar; lra]|].
      split; [field; lra|]. split; [field; lra|]. intros L. exfalso. assert (r * r * (a * a + b * b) <= r * r) by nra.
      assert (0 < r * r) by nra. nra.
  - pose proof (sqrt_sqrt (1 - (a * a + b * b)) ltac:(lra)) as S. split; [nra|]. split; [apply sqrt_pos|].
    exists 1. split; [lra|]. split; [ring|]. split; [ring|]. reflexivity.
Qed.

(** ** the invariant *)
Definition good_faxis (a : fvec) : Prop := exists v, a = Some v /\ inner 3 v v = 1 /\ good_axis v.
Definition funit3 (v : fvec) : Prop := exists w, v = Some w /\ inner 3 w w = 1.
Definition funit4 (q : fvec) : Prop := exists w, q = Some w /\ unit_quat w.
Lemma good_nonzero v : good_axis v -> inner 3 v v <> 0.
Proof. intros G Z. apply G. unfold inner in Z. cbn [vsum] in Z. repeat split; nra. Qed.
Lemma funit_good v : good_axis v -> good_faxis (funit v).
Proof.
  intros G. pose proof (good_nonzero v G) as Z. unfold funit. rewrite <- inner3_dot. destruct (Req_EM_T _ 0); [contradiction|].
  exists (unit3 v). split; [reflexivity|]. split; [pose proof (unit3_norm v Z); unfold inner; cbn [vsum]; lra|].
  destruct (unit3_back v Z) as (s & Hs & _ & E). intros (A & B & C). apply G. rewrite (E 0%nat), (E 1%nat), (E 2%nat), A, B.
  split; [ring|]. split; [ring|]. nra.
Qed.
Lemma constrain_unit p a : inner 3 a a = 1 -> good_axis a -> funit3 (constrain_to_axis p a).
Proof.
  intros U G. unfold constrain_to_axis. cbv zeta. set (v := vminus _ _). unfold norm3. destruct (Rlt_dec _ _) as [H|H].
  - pose proof eps_pos. eexists. split; [reflexivity|]. set (w := if Rlt_dec (v 2%nat) 0 then vneg v else v).
    assert (W : dot3 w w = dot3 v v) by (unfold w; destruct (Rlt_dec _ _); [unfold dot3, vneg; ring|reflexivity]).
    pose proof (sqrt_sqrt _ (dot3_nonneg v)) as S. set (n := sqrt (dot3 v v)) in *. rewrite inner3_dot.
    replace (dot3 (fun k => w k / n) (fun k => w k / n)) with (dot3 w w / (n * n)) by (unfold dot3; field; lra). rewrite W, <- S. field. lra.
  - destruct (Req_EM_T _ 1) as [E|E].
    + eexists. split; [reflexivity|]. unfold inner. cbn. ring.
    + assert (Z : dot3 (vec3 (- a 1%nat) (a 0%nat) 0) (vec3 (- a 1%nat) (a 0%nat) 0) <> 0).
      { intros Z. unfold dot3 in Z. cbn in Z. assert (A0 : a 0%nat = 0) by nra. assert (A1 : a 1%nat = 0) by nra.
        apply G. split; [exact A0|]. split; [exact A1|]. unfold inner in U. cbn [vsum] in U. rewrite A0, A1 in U.
        assert (F : (a 2%nat - 1) * (a 2%nat + 1) = 0) by lra. apply Rmult_integral in F as [F|F]; lra. }
      unfold funit. destruct (Req_EM_T _ 0); [contradiction|]. eexists. split; [reflexivity|]. rewrite <- inner3_dot in Z.
      pose proof (unit3_norm _ Z). unfold inner. cbn [vsum]. lra.
Qed.
Lemma constrain_perp p a v : inner 3 a a = 1 -> inner 3 p p = 1 -> constrain_to_axis p a = Some v -> inner 3 v a = 0 \/ norm3 (vminus p (vscale (dot3 a p) a)) <= eps.
Proof.
  intros U P. unfold constrain_to_axis. cbv zeta. set (w := vminus _ _). destruct (Rlt_dec _ _) as [H|H]; [|right; lra].
  intros [= <-]. left. assert (W : inner 3 w a = 0) by (unfold w, inner, vminus, vscale, dot3 in *; cbn [vsum] in *; clear - U; nsatz).
  unfold inner in *. cbn [vsum] in *. destruct (Rlt_dec _ _); unfold vneg, Rdiv.
  - replace (_ + _) with (- / norm3 w * (0 + w 0%nat * a 0%nat + w 1%nat * a 1%nat + w 2%nat * a 2%nat)) by ring. rewrite W. ring.
  - replace (_ + _) with (/ norm3 w * (0 + w 0%nat * a 0%nat + w 1%nat * a 1%nat + w 2%nat * a 2%nat)) by ring. rewrite W. ring.
Qed.
Lemma fconstrain_unit p a : good_faxis a -> funit3 (constrain_faxis p a).
Proof. intros (v & -> & U & G). apply constrain_unit; assumption. Qed.
Lemma nearest_in p axes a : nearest_axis p axes = Some a -> In a axes.
Proof.
  unfold nearest_axis.
  assert (G : forall l st, (forall a, fst st = Some a -> In a axes) -> (forall a, In a l -> In a axes) ->
    forall a, fst (fold_left (fun st axis => match constrain_faxis p axis with
         | Some c => let t := dot3 c p in if Rlt_dec (snd st) t then (Some axis, t) else st
         | None => st end) l st) = Some a -> In a axes).
  { induction l as [|x l IH]; intros st Hs Hl b; [apply Hs|]. cbn [fold_left]. apply IH.
    - destruct (constrain_faxis p x); [|exact Hs]. cbv zeta. destruct (Rlt_dec _ _); [|exact Hs]. intros c [= <-]. apply Hl. left. reflexivity.
    - intros c Hc. apply Hl. right. exact Hc. }
  apply G; [discriminate|auto].
Qed.
Record ball_ok (b : arcball) : Prop := {
  ok_axis : forall a, ab_axis b = Some a -> good_faxis a;
  ok_axes : forall l, ab_axes b = Some l -> Forall good_faxis l;
  ok_vdown : funit3 (ab_vdown b);
  ok_qdown : funit4 (ab_qdown b); ok_qnow : funit4 (ab_qnow b); ok_qpre : funit4 (ab_qpre b) }.
Definition good_event (e : event) : Prop := match e with SetAxes l => Forall good_axis l | _ => True end.
Lemma between_unit v w q : inner 3 v v = 1 -> inner 3 w w = 1 -> unit_quat q ->
  unit_quat (quaternion_multiply (vec4 (dot3 v w) (cross v w 0%nat) (cross v w 1%nat) (cross v w 2%nat)) q).
Proof.
  intros V W Q. unfold unit_quat in *. rewrite mul_norm, Q, Rmult_1_r. unfold inner in *. cbn [vsum vec4] in *. unfold dot3, cross. cbn [vec3].
  clear q Q. revert V W. generalize (v 0%nat) (v 1%nat) (v 2%nat) (w 0%nat) (w 1%nat) (w 2%nat). intros a b c d e f V W. nsatz.
Qed.
Lemma step_ok b e : ball_ok b -> good_event e -> ball_ok (fst (arcball_step b e)).
Proof.
  intros B G. pose proof B as [B1 B2 B3 B4 B5 B6]. destruct e as [c r|l|c|p|p|a]; cbn [arcball_step fst] in *.
  - constructor; assumption.
  - constructor; try assumption. intros l' [= <-]. cbn in G. apply Forall_map. eapply Forall_impl; [|exact G]. exact funit_good.
  - constructor; assumption.
  - unfold arcball_down. destruct (map_to_sphere _ _ _) as [v|ex] eqn:M; [|exact B].
    apply sphere_unit in M as (U & _). cbv zeta. assert (V : funit3 (Some v)) by (exists v; auto).
    destruct (ab_constrain b); [|constructor; cbn; try assumption; discriminate].
    destruct (ab_axes b) as [l|] eqn:L; [|constructor; cbn; try assumption; discriminate].
    destruct (nearest_axis v l) as [a|] eqn:N.
    + apply nearest_in in N. pose proof (proj1 (Forall_forall _ _) (B2 l eq_refl) _ N) as GA.
      constructor; cbn; try assumption; [intros a' [= <-]; exact GA|apply fconstrain_unit, GA].
    + constructor; cbn; assumption.
  - unfold arcball_drag. destruct (map_to_sphere _ _ _) as [v|ex] eqn:M; [|exact B].
    apply sphere_unit in M as (U & _). cbv zeta.
    assert (V : funit3 (match ab_axis b with Some axis => constrain_faxis v axis | None => Some v end)).
    { destruct (ab_axis b) as [a|] eqn:A; [apply fconstrain_unit, B1; reflexivity|exists v; auto]. }
    destruct V as (w & -> & W). destruct B3 as (d & E & D). rewrite E. destruct B4 as (qd & E4 & Q4). rewrite E4.
    constructor; cbn [fst ab_axis ab_axes ab_vdown ab_qdown ab_qnow ab_qpre]; try assumption; try (rewrite E; exists d; auto); try (rewrite E4; exists qd; auto).
    + exists d. auto.
    + exists qd. auto.
    + destruct (Rlt_dec _ _); [exists qd; auto|]. eexists. split; [reflexivity|]. apply between_unit; assumption.
  - unfold arcball_next. destruct B6 as (p & -> & P). pose proof B5 as (n & En & N). rewrite En.
    constructor; cbn; try assumption.
    + eexists. split; [reflexivity|]. change 0%Z with (2 * 0)%Z. apply slerp_unit; [rewrite P|rewrite N]; lra.
    + rewrite <- En. exact B5.
Qed.
Lemma run_ok l : forall b, ball_ok b -> Forall good_event l -> ball_ok (arcball_run l b).
Proof.
  unfold arcball_run. induction l as [|e l IH]; intros b B G; [exact B|]. inversion G; subst. cbn [fold_left]. apply IH; [|assumption]. apply step_ok; assumption.
Qed.
Definition good_initial (eigmax : mat4 -> vec) (i : initial) : Prop :=
  match i with
  | INone => True
  | IMatrix m => proper_rotation m /\ top_eigenvector (lower_triangle (kmatrix m)) (eigmax (lower_triangle (kmatrix m)))
  | IQuat q => inner 4 q q <> 0
  | IOther => False
  end.
Lemma init_ok eig i : good_initial eig i -> exists b, arcball_init eig i = Ok b /\ ball_ok b.
Proof.
  intros G. assert (M : forall q, funit4 q -> ball_ok (Arcball None None 1 (0, 0) (Some (vec3 0 0 1)) false q q q)).
  { intros q Q. constructor; cbn; try assumption; try discriminate. eexists. split; [reflexivity|]. unfold inner. cbn. ring. }
  destruct i as [|m|q|]; cbn in G |- *; [| | |contradiction]; eexists; (split; [reflexivity|]); apply M.
  - eexists. split; [reflexivity|]. unfold unit_quat, inner. cbn. ring.
  - destruct G as [P T]. eexists. split; [reflexivity|]. eapply is_quat_unit, from_matrix_imprecise; eassumption.
  - rewrite <- inner4_dot. destruct (Req_EM_T _ 0); [contradiction|]. eexists. split; [reflexivity|]. apply unit4_norm, G.
Qed.
Lemma ball_history eig i l : good_initial eig i -> Forall good_event l ->
  exists b q m, arcball_init eig i = Ok b /\ ab_qnow (arcball_run l b) = Some q /\ unit_quat q /\ arcball_matrix (arcball_run l b) = Some m /\ proper_rotation m.
Proof.
  intros G L. destruct (init_ok eig i G) as (b & E & B). pose proof (run_ok l b B L) as [_ _ _ _ (q & Q & U) _].
  exists b, q, (quaternion_matrix q). unfold arcball_matrix. rewrite Q. do 2 (split; [assumption || reflexivity|]). split; [exact U|]. split; [reflexivity|apply qmatrix_rotation].
Qed.
(** the axis (0, 0, -1) *)
Lemma ball_refuted eig : exists b, arcball_init eig INone = Ok b /\
  let l := [SetAxes [vec3 0 0 (- 1)]; Constrain true; Down (1, 0); Drag (0, 0)] in
  arcball_matrix (arcball_run l b) = None.
Proof.
  eexists. split; [reflexivity|]. cbv zeta. unfold arcball_run. cbn [fold_left arcball_step fst].
  unfold arcball_setaxes, arcball_constrain. cbn [map ab_axis ab_axes ab_radius ab_center ab_vdown ab_constrain ab_qdown ab_qnow ab_qpre].
  set (z := vec3 0 0 (- 1)). pose proof eps_lt1 as E1. pose proof eps_pos as E0.
  assert (Z : exists u, funit z = Some u /\ u 0%nat = 0 /\ u 1%nat = 0 /\ u 2%nat = - 1).
  { unfold funit. replace (dot3 z z) with 1 by (unfold dot3, z; cbn; ring). destruct (Req_EM_T 1 0); [lra|]. eexists. split; [reflexivity|].
    unfold unit3. replace (dot3 z z) with 1 by (unfold dot3, z; cbn; ring). rewrite sqrt_1. unfold z. cbn. repeat split; field. }
  destruct Z as (u & -> & U0 & U1 & U2).
  unfold arcball_down. cbn [ab_axis ab_axes ab_radius ab_center ab_vdown ab_constrain ab_qdown ab_qnow ab_qpre].
  unfold map_to_sphere. cbn [fst snd]. destruct (Req_EM_T 1 0); [lra|]. cbv zeta. destruct (Rlt_dec 1 _) as [C|_]; [exfalso; lra|].
  set (p := vec3 _ _ _).
  assert (P0 : p 0%nat = 1) by (unfold p; cbn [vec3]; field). assert (P1 : p 1%nat = 0) by (unfold p; cbn [vec3]; field).
  assert (P2 : p 2%nat = 0) by (transitivity (sqrt 0); [unfold p; cbn [vec3]; f_equal; field|apply sqrt_0]).
  assert (N1 : norm3 (vminus p (vscale (dot3 u p) u)) = 1).
  { transitivity (sqrt 1); [|apply sqrt_1]. unfold norm3. f_equal. unfold dot3, vminus, vscale. rewrite U0, U1, U2, P0, P1, P2. ring. }
  assert (K : exists w, constrain_to_axis p u = Some w /\ dot3 w p = 1).
  { unfold constrain_to_axis. cbv zeta. rewrite N1. destruct (Rlt_dec eps 1); [|lra]. eexists. split; [reflexivity|].
    assert (V2 : vminus p (vscale (dot3 u p) u) 2%nat = 0) by (unfold dot3, vminus, vscale; rewrite U0, U1, U2, P0, P1, P2; ring).
    rewrite V2. destruct (Rlt_dec 0 0); [lra|]. unfold dot3, vminus, vscale. rewrite U0, U1, U2, P0, P1, P2. field. }
  destruct K as (w & K & Kp). unfold nearest_axis. cbn [fold_left constrain_faxis fst snd]. rewrite K. cbv zeta. rewrite Kp.
  destruct (Rlt_dec (- 1) 1); [|lra]. cbn [fst constrain_faxis]. rewrite K.
  unfold arcball_drag. cbn [ab_axis ab_axes ab_radius ab_center ab_vdown ab_constrain ab_qdown ab_qnow ab_qpre].
  unfold map_to_sphere. cbn [fst snd]. destruct (Req_EM_T 1 0); [lra|]. cbv zeta. destruct (Rlt_dec 1 _) as [C|_]; [exfalso; lra|].
  set (o := vec3 _ _ _).
  assert (O0 : o 0%nat = 0) by (unfold o; cbn [vec3]; field). assert (O1 : o 1%nat = 0) by (unfold o; cbn [vec3]; field).
  assert (O2 : o 2%nat = 1) by (transitivity (sqrt 1); [unfold o; cbn [vec3]; f_equal; field|apply sqrt_1]).
  assert (N : constrain_to_axis o u = None).
  { unfold constrain_to_axis. cbv zeta. replace (norm3 _) with 0.
    - destruct (Rlt_dec eps 0); [lra|]. rewrite U2. destruct (Req_EM_T (- 1) 1); [lra|]. unfold funit.
      destruct (Req_EM_T _ 0) as [|X]; [reflexivity|]. exfalso. apply X. unfold dot3. cbn. rewrite U0, U1. ring.
    - symmetry. transitivity (sqrt 0); [|apply sqrt_0]. unfold norm3. f_equal. unfold dot3, vminus, vscale. rewrite U0, U1, U2, O0, O1, O2. ring. }
  cbn [constrain_faxis fst arcball_matrix ab_qnow]. rewrite N. reflexivity.
Qed.

Lemma ball_histories eig l b :
  (forall axes v, In (SetAxes axes) l -> In v axes -> good_axis v) ->
  (arcball_init eig INone = Ok b \/
   (exists q, inner 4 q q <> 0 /\ arcball_init eig (IQuat q) = Ok b) \/
   (exists m, proper_rotation m /\ top_eigenvector (lower_triangle (kmatrix m)) (eig (lower_triangle (kmatrix m))) /\ arcball_init eig (IMatrix m) = Ok b)) ->
  exists q m, ab_qnow (arcball_run l b) = Some q /\ unit_quat q /\ arcball_matrix (arcball_run l b) = Some m /\ proper_rotation m.
Proof.
  intros L I. assert (G : Forall good_event l).
  { apply Forall_forall. intros e He. destruct e; cbn; auto. apply Forall_forall. intros v Hv. eapply L; eassumption. }
  assert (E : exists i, good_initial eig i /\ arcball_init eig i = Ok b).
  { destruct I as [I|[(q & Q & I)|(m & P & T & I)]]; [exists INone|exists (IQuat q)|exists (IMatrix m)]; cbn; auto. }
  destruct E as (i & Gi & Ei). destruct (ball_history eig i l Gi G) as (b' & q & m & E & H1 & H2 & H3 & H4).
  rewrite Ei in E. injection E as <-. exists q, m. auto.
Qed.
