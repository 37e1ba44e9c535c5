From Coq Require Import Nsatz.
From Verif Require Import Base SpecTensor ModelTrans SpecTrans SpecBall ProofTrans ProofRigid ProofQuat ProofBall.
Open Scope R_scope.
Notation length := List.length.

Definition between (v w : vec) : vec := vec4 (dot3 v w) (cross v w 0%nat) (cross v w 1%nat) (cross v w 2%nat).
Lemma eps_le1 : eps <= 1.
Proof. unfold eps. rewrite <- Rinv_1. apply Rinv_le_contravar; [lra|]. apply pow_R1_Rle. lra. Qed.
Lemma between_norm v w : inner 3 v v = 1 -> inner 3 w w = 1 -> unit_quat (between v w).
Proof.
  intros V W. unfold unit_quat, between. replace (inner 4 _ _) with (inner 3 v v * inner 3 w w); [rewrite V, W; ring|].
  unfold inner, dot3, cross. cbn. ring.
Qed.
Lemma between_acts v w u i : inner 3 v v = 1 -> inner 3 w w = 1 -> (i < 3)%nat ->
  turns (quaternion_matrix (between v w)) u i = turned v w u i.
Proof.
  intros V W Hi. pose proof (between_norm v w V W) as N. unfold unit_quat in N.
  pose proof (qmatrix_acts (between v w) u) as A. rewrite N in A. specialize (A eps_le1 (Datatypes.S i) ltac:(lia)).
  unfold turns. transitivity (qmul (qmul (between v w) (vec4 0 (u 0%nat) (u 1%nat) (u 2%nat))) (quaternion_conjugate (between v w)) (Datatypes.S i)).
  - rewrite A. unfold vscale. destruct i as [|[|[|i]]]; [cbn; ring..|lia].
  - transitivity (inner 3 w w * (inner 3 v v * u i - 2 * inner 3 u v * v i)
      - 2 * inner 3 (fun k => inner 3 v v * u k - 2 * inner 3 u v * v k) w * w i).
    + unfold between, qmul, quaternion_conjugate, inner, dot3, cross. destruct i as [|[|[|i]]]; [cbn; ring..|lia].
    + rewrite V, W. unfold turned, reflected, inner. cbn. ring.
Qed.
Lemma unit_self : forall q, unit_quat q -> eps <= inner 4 q q.
Proof. intros q H. rewrite H. exact eps_le1. Qed.
Lemma turns_product a b u i : linear b -> (i < 3)%nat -> a i 3%nat = 0 -> turns (product a b) u i = turns a (turns b u) i.
Proof.
  intros [[B _] _] Hi Ha. unfold turns, product, inner. cbn. rewrite Ha, !B by lia. ring.
Qed.
Lemma drag_matrix v w q u i : inner 3 v v = 1 -> inner 3 w w = 1 -> unit_quat q -> (i < 3)%nat ->
  turns (quaternion_matrix (quaternion_multiply (between v w) q)) u i = turned v w (turns (quaternion_matrix q) u) i.
Proof.
  intros V W Q Hi. pose proof (between_norm v w V W) as N.
  pose proof (qmatrix_mul (between v w) q (unit_self _ N) (unit_self _ Q)) as M. rewrite N, Q, Rmult_1_l in M. specialize (M eps_le1).
  assert (E : turns (quaternion_matrix (quaternion_multiply (between v w) q)) u i = turns (product (quaternion_matrix (between v w)) (quaternion_matrix q)) u i).
  { unfold turns, inner. cbn. rewrite !M by lia. reflexivity. }
  rewrite E. destruct (qmatrix_rotation (between v w)) as ((_ & L) & _). destruct (qmatrix_rotation q) as (L' & _).
  rewrite turns_product by (try assumption; apply L; assumption). apply between_acts; assumption.
Qed.
(** what drags leave alone *)
Definition kept (b b' : arcball) : Prop := ab_axis b' = ab_axis b /\ ab_radius b' = ab_radius b /\ ab_center b' = ab_center b /\ ab_vdown b' = ab_vdown b /\ ab_qdown b' = ab_qdown b.
Lemma drag_kept p b : kept b (fst (arcball_drag p b)).
Proof. unfold arcball_drag, kept. destruct (map_to_sphere _ _ _); cbn; auto. Qed.
Lemma run_app l l' b : arcball_run (l ++ l') b = arcball_run l' (arcball_run l b).
Proof. unfold arcball_run. apply fold_left_app. Qed.
Lemma drags_kept ps : forall b, kept b (arcball_run (map Drag ps) b).
Proof.
  induction ps as [|p ps IH]; intros b; [unfold kept; auto|]. cbn [map]. unfold arcball_run. cbn [fold_left]. fold (arcball_run (map Drag ps) (fst (arcball_step b (Drag p)))).
  destruct (IH (fst (arcball_step b (Drag p)))) as (A & B & C & D & E). cbn [arcball_step] in *. destruct (drag_kept p b) as (A' & B' & C' & D' & E').
  unfold kept. rewrite A, B, C, D, E. auto.
Qed.
(** the orientation after a drag *)
Definition dragged (v w q : vec) : vec := if Rlt_dec (dot3 (cross v w) (cross v w)) eps then q else quaternion_multiply (between v w) q.
Lemma drag_result p b v x q w : ab_vdown b = Some v -> ab_qdown b = Some q -> map_to_sphere p (ab_center b) (ab_radius b) = Ok x ->
  match ab_axis b with Some a => constrain_faxis x a | None => Some x end = Some w ->
  ab_qnow (fst (arcball_drag p b)) = Some (dragged v w q).
Proof.
  intros V Q M A. unfold arcball_drag. rewrite M. cbv zeta. rewrite A, V, Q. cbn [fst ab_qnow]. unfold dragged, between. destruct (Rlt_dec _ _); reflexivity.
Qed.
Lemma dragged_acts v w q : inner 3 v v = 1 -> inner 3 w w = 1 -> unit_quat q ->
  (eps <= inner 3 (cross_spec v w) (cross_spec v w) -> forall u i, (i < 3)%nat -> turns (quaternion_matrix (dragged v w q)) u i = turned v w (turns (quaternion_matrix q) u) i) /\
  (inner 3 (cross_spec v w) (cross_spec v w) < eps -> dragged v w q = q).
Proof.
  intros V W Q. assert (E : inner 3 (cross_spec v w) (cross_spec v w) = dot3 (cross v w) (cross v w)) by (unfold inner, dot3, cross; cbn; ring).
  rewrite E. unfold dragged. split; intros H; destruct (Rlt_dec _ _) as [L|L]; try lra.
  - intros u i Hi. apply drag_matrix; assumption.
  - reflexivity.
Qed.
Lemma free_drag b p ps p' v w q : (ab_constrain b = false \/ ab_axes b = None) ->
  map_to_sphere p (ab_center b) (ab_radius b) = Ok v -> map_to_sphere p' (ab_center b) (ab_radius b) = Ok w -> ab_qnow b = Some q ->
  ab_qnow (arcball_run (Down p :: map Drag ps ++ [Drag p']) b) = Some (dragged v w q).
Proof.
  intros C V W Q. change (Down p :: map Drag ps ++ [Drag p']) with ([Down p] ++ map Drag ps ++ [Drag p']). rewrite !run_app.
  set (b1 := arcball_run [Down p] b).
  assert (B1 : b1 = Arcball None (ab_axes b) (ab_radius b) (ab_center b) (Some v) (ab_constrain b) (Some q) (Some q) (Some q)).
  { unfold b1, arcball_run. cbn [fold_left arcball_step]. unfold arcball_down. rewrite V, Q. cbv zeta. destruct C as [C|C]; rewrite C; [reflexivity|]. destruct (ab_constrain b); reflexivity. }
  destruct (drags_kept ps b1) as (A & R' & C' & D & E). set (b2 := arcball_run (map Drag ps) b1) in *. rewrite B1 in A, R', C', D, E. cbn in A, R', C', D, E.
  unfold arcball_run. cbn [fold_left arcball_step]. apply drag_result with (x := w); try assumption; [rewrite C', R'; exact W|rewrite A; reflexivity].
Qed.
Lemma trackball b p ps p' v w q : (ab_constrain b = false \/ ab_axes b = None) ->
  map_to_sphere p (ab_center b) (ab_radius b) = Ok v -> map_to_sphere p' (ab_center b) (ab_radius b) = Ok w ->
  ab_qnow b = Some q -> unit_quat q ->
  exists m0 m, arcball_matrix b = Some m0 /\ arcball_matrix (arcball_run (Down p :: map Drag ps ++ [Drag p']) b) = Some m /\
  (eps <= inner 3 (cross_spec v w) (cross_spec v w) -> forall u i, (i < 3)%nat -> turns m u i = turned v w (turns m0 u) i) /\
  (inner 3 (cross_spec v w) (cross_spec v w) < eps -> m = m0).
Proof.
  intros C V W Q U. pose proof (free_drag b p ps p' v w q C V W Q) as F. unfold arcball_matrix. rewrite F, Q.
  eexists. eexists. split; [reflexivity|]. split; [reflexivity|].
  apply sphere_unit in V as (V & _). apply sphere_unit in W as (W & _). destruct (dragged_acts v w q V W U) as (A & B).
  split; [exact A|]. intros L. rewrite (B L). reflexivity.
Qed.
Lemma there_and_back b p ps q : (ab_constrain b = false \/ ab_axes b = None) -> ab_radius b <> 0 -> ab_qnow b = Some q ->
  arcball_matrix (arcball_run (Down p :: map Drag ps ++ [Drag p]) b) = arcball_matrix b.
Proof.
  intros C R0 Q. destruct (sphere_total p (ab_center b) _ R0) as (v & V). pose proof (free_drag b p ps p v v q C V V Q) as F.
  unfold arcball_matrix. rewrite F, Q. unfold dragged. destruct (Rlt_dec _ _) as [L|L]; [reflexivity|]. exfalso. apply L.
  replace (dot3 _ _) with 0 by (unfold dot3, cross; cbn; ring). exact eps_pos.
Qed.
(** ** with an axis *)
Lemma constrain_across p a v : inner 3 a a = 1 -> good_axis a -> constrain_to_axis p a = Some v -> inner 3 v v = 1 /\ inner 3 v a = 0.
Proof.
  intros U G E. split; [destruct (constrain_unit p a U G) as (w & E' & W); congruence|].
  revert E. unfold constrain_to_axis. cbv zeta. set (w := vminus _ _). destruct (Rlt_dec _ _) as [H|H].
  - intros [= <-]. assert (W : inner 3 w a = 0) by (unfold w, inner, vminus, vscale, dot3 in *; cbn [vsum] in *; clear - U; nsatz).
    unfold inner in *. cbn [vsum] in *. destruct (Rlt_dec _ _); unfold vneg, Rdiv.
    + replace (_ + _) with (- / norm3 w * (0 + w 0%nat * a 0%nat + w 1%nat * a 1%nat + w 2%nat * a 2%nat)) by ring. rewrite W. ring.
    + replace (_ + _) with (/ norm3 w * (0 + w 0%nat * a 0%nat + w 1%nat * a 1%nat + w 2%nat * a 2%nat)) by ring. rewrite W. ring.
  - destruct (Req_EM_T _ 1) as [E|E].
    + intros [= <-]. unfold inner in *. cbn in *. rewrite E in U. assert (a 0%nat = 0) by nra. lra.
    + unfold funit. destruct (Req_EM_T _ 0) as [Z|Z]; [discriminate|]. intros [= <-]. rewrite <- inner3_dot in Z.
      destruct (unit3_back _ Z) as (s & Hs & _ & B). assert (s * inner 3 (unit3 (vec3 (- a 1%nat) (a 0%nat) 0)) a = 0).
      { pose proof (B 0%nat) as B0. pose proof (B 1%nat) as B1. pose proof (B 2%nat) as B2. cbn [vec3] in B0, B1, B2. unfold inner. cbn [vsum].
        set (u := unit3 _) in *. transitivity ((s * u 0%nat) * a 0%nat + (s * u 1%nat) * a 1%nat + (s * u 2%nat) * a 2%nat); [ring|].
        rewrite <- B0, <- B1, <- B2. ring. }
      apply Rmult_integral in H0 as [|]; [lra|assumption].
Qed.
Lemma across_turned v w a i : inner 3 v a = 0 -> inner 3 w a = 0 -> turned v w a i = a i.
Proof.
  intros V W. unfold turned, reflected. assert (E : inner 3 a v = 0) by (rewrite <- V; unfold inner; cbn; ring).
  assert (E' : inner 3 (fun k => a k - 2 * inner 3 a v * v k) w = 0) by (rewrite E; transitivity (inner 3 w a); [unfold inner; cbn; ring|exact W]).
  rewrite E', E. ring.
Qed.
Lemma faxis_good axes a : Forall good_faxis axes -> In (Some a) axes -> inner 3 a a = 1 /\ good_axis a.
Proof. intros F H. destruct (proj1 (Forall_forall _ _) F _ H) as (v & E & U & G). injection E as <-. auto. Qed.
Lemma trackball_axis b p ps p' q axes : ab_constrain b = true -> ab_axes b = Some axes -> Forall good_faxis axes ->
  snd (arcball_step b (Down p)) = None -> ab_radius b <> 0 -> ab_qnow b = Some q -> unit_quat q ->
  exists a m0 m d, In (Some a) axes /\ inner 3 a a = 1 /\
  arcball_matrix b = Some m0 /\ arcball_matrix (arcball_run (Down p :: map Drag ps ++ [Drag p']) b) = Some m /\
  proper_rotation d /\ (forall i, (i < 3)%nat -> turns d a i = a i) /\
  forall u i, (i < 3)%nat -> turns m u i = turns d (turns m0 u) i.
Proof.
  intros C AX F N R0 Q U. destruct (sphere_total p (ab_center b) _ R0) as (x & X). destruct (sphere_total p' (ab_center b) _ R0) as (y & Y).
  assert (D : exists a v, In (Some a) axes /\ constrain_to_axis x a = Some v /\
    fst (arcball_step b (Down p)) = Arcball (Some (Some a)) (Some axes) (ab_radius b) (ab_center b) (Some v) true (Some q) (Some q) (Some q)).
  { cbn [arcball_step] in *. unfold arcball_down in *. rewrite X, C, AX in *. destruct (nearest_axis x axes) as [fa|] eqn:NA; [|discriminate].
    pose proof (nearest_in x axes fa NA) as I. destruct (proj1 (Forall_forall _ _) F _ I) as (a & -> & Ua & Ga).
    destruct (constrain_unit x a Ua Ga) as (v & V & _). exists a, v. split; [exact I|]. split; [exact V|]. cbn [constrain_faxis fst]. rewrite V, Q. reflexivity. }
  destruct D as (a & v & I & V & D). destruct (faxis_good axes a F I) as (Ua & Ga). destruct (constrain_unit y a Ua Ga) as (w & W & _).
  destruct (constrain_across x a v Ua Ga V) as (V1 & V0). destruct (constrain_across y a w Ua Ga W) as (W1 & W0).
  assert (E : ab_qnow (arcball_run (Down p :: map Drag ps ++ [Drag p']) b) = Some (dragged v w q)).
  { change (Down p :: map Drag ps ++ [Drag p']) with ([Down p] ++ map Drag ps ++ [Drag p']). rewrite !run_app.
    set (b1 := arcball_run [Down p] b). assert (B1 : b1 = Arcball (Some (Some a)) (Some axes) (ab_radius b) (ab_center b) (Some v) true (Some q) (Some q) (Some q)) by exact D.
    destruct (drags_kept ps b1) as (A & R' & C' & D' & E'). set (b2 := arcball_run (map Drag ps) b1) in *. rewrite B1 in A, R', C', D', E'. cbn in A, R', C', D', E'.
    unfold arcball_run. cbn [fold_left arcball_step]. apply drag_result with (x := y); try assumption; [rewrite C', R'; exact Y|rewrite A; exact W]. }
  exists a, (quaternion_matrix q), (quaternion_matrix (dragged v w q)), (quaternion_matrix (dragged v w one_quat)).
  split; [exact I|]. split; [exact Ua|]. unfold arcball_matrix. rewrite E, Q. split; [reflexivity|]. split; [reflexivity|]. split; [apply qmatrix_rotation|].
  assert (O : unit_quat one_quat) by (unfold unit_quat, inner; cbn; ring).
  assert (ID : forall u i, (i < 3)%nat -> turns (quaternion_matrix one_quat) u i = u i).
  { intros u i Hi. pose proof (qmatrix_acts one_quat u (unit_self _ O) (Datatypes.S i) ltac:(lia)) as A. rewrite O in A.
    unfold vscale in A. unfold turns. destruct i as [|[|[|i]]]; [..|lia]; cbn in A |- *; lra. }
  destruct (dragged_acts v w q V1 W1 U) as (A1 & A2). destruct (dragged_acts v w one_quat V1 W1 O) as (O1 & O2).
  assert (TX : forall u u' i, (forall k, (k < 3)%nat -> u k = u' k) -> (i < 3)%nat -> turned v w u i = turned v w u' i).
  { intros u u' i H Hi. unfold turned, reflected, inner. cbn. rewrite !H by lia. reflexivity. }
  destruct (Rlt_dec (inner 3 (cross_spec v w) (cross_spec v w)) eps) as [L|L].
  - rewrite (A2 L), (O2 L). split; [intros i Hi; apply ID, Hi|]. intros u i Hi. rewrite ID by exact Hi. reflexivity.
  - assert (L' : eps <= inner 3 (cross_spec v w) (cross_spec v w)) by lra. specialize (A1 L'). specialize (O1 L'). split.
    + intros i Hi. rewrite O1 by exact Hi. rewrite (TX _ a) by (try exact Hi; intros k Hk; apply ID, Hk). apply across_turned; assumption.
    + intros u i Hi. rewrite A1, O1 by exact Hi. apply TX; [|exact Hi]. intros k Hk. rewrite ID by exact Hk. reflexivity.
Qed.
(** some axis is nearest *)
Lemma three_squares a b c : 0 + a * a + b * b + c * c = 0 -> a = 0 /\ b = 0 /\ c = 0.
Proof. intros H. pose proof (Rle_0_sqr a). pose proof (Rle_0_sqr b). pose proof (Rle_0_sqr c). unfold Rsqr in *. repeat split; apply Rsqr_0_uniq; unfold Rsqr; lra. Qed.
Lemma constrain_front x a v : inner 3 x x = 1 -> 0 <= x 2%nat -> inner 3 a a = 1 -> good_axis a -> constrain_to_axis x a = Some v -> - 1 < dot3 v x.
Proof.
  intros X X2 U G E. destruct (constrain_across x a v U G E) as (V1 & V0). rewrite <- inner3_dot.
  assert (P : inner 3 (fun k => v k + x k) (fun k => v k + x k) = 2 + 2 * inner 3 v x).
  { transitivity (inner 3 v v + inner 3 x x + 2 * inner 3 v x); [unfold inner; cbn; ring|lra]. }
  assert (Q : 0 <= inner 3 (fun k => v k + x k) (fun k => v k + x k)).
  { unfold inner. cbn. pose proof (Rle_0_sqr (v 0%nat + x 0%nat)). pose proof (Rle_0_sqr (v 1%nat + x 1%nat)). pose proof (Rle_0_sqr (v 2%nat + x 2%nat)). unfold Rsqr in *. lra. }
  destruct (Rlt_dec (- 1) (inner 3 v x)) as [|N]; [assumption|exfalso].
  assert (Z : inner 3 (fun k => v k + x k) (fun k => v k + x k) = 0) by lra. unfold inner in Z. cbn in Z.
  destruct (three_squares _ _ _ Z) as (S0 & S1 & S2).
  assert (Z0 : v 0%nat = - x 0%nat) by lra. assert (Z1 : v 1%nat = - x 1%nat) by lra. assert (Z2 : v 2%nat = - x 2%nat) by lra.
  (* then x is across the axis and is its own image *)
  assert (XA : dot3 a x = 0). { rewrite <- inner3_dot. unfold inner in V0 |- *. cbn in *. rewrite Z0, Z1, Z2 in V0. lra. }
  revert E. unfold constrain_to_axis. cbv zeta. set (w := vminus _ _).
  assert (W : forall k, w k = x k) by (intros k; unfold w, vminus, vscale; rewrite XA; ring).
  assert (NW : norm3 w = 1). { unfold norm3. replace (dot3 w w) with (inner 3 x x); [rewrite X; apply sqrt_1|]. unfold dot3, inner. cbn. rewrite !W. ring. }
  rewrite NW. destruct (Rlt_dec eps 1) as [_|L]; [|pose proof eps_lt1; lra].
  rewrite !W. destruct (Rlt_dec (x 2%nat) 0) as [|_]; [lra|]. intros [= <-]. cbn beta in *.
  rewrite W in Z0, Z1, Z2. assert (x 0%nat = 0) by lra. assert (x 1%nat = 0) by lra. assert (x 2%nat = 0) by lra. unfold inner in X. cbn in X. nra.
Qed.
Lemma nearest_some x axes : inner 3 x x = 1 -> 0 <= x 2%nat -> Forall good_faxis axes -> axes <> [] -> nearest_axis x axes <> None.
Proof.
  intros X X2 F NE. unfold nearest_axis. match goal with |- fst (fold_left ?f _ _) <> None => set (g := f) end.
  assert (G : forall l st, fst st <> None -> fst (fold_left g l st) <> None).
  { induction l as [|y l IH]; intros st Hs; [exact Hs|]. cbn [fold_left]. apply IH. unfold g. destruct (constrain_faxis x y); [|exact Hs]. cbv zeta. destruct (Rlt_dec _ _); [discriminate|exact Hs]. }
  destruct axes as [|fa axes]; [congruence|]. inversion F as [|? ? (a & -> & U & Ga) F']; subst. cbn [fold_left]. apply G.
  unfold g. cbn [constrain_faxis]. destruct (constrain_unit x a U Ga) as (v & V & _). rewrite V. cbv zeta. pose proof (constrain_front x a v X X2 U Ga V) as L. cbn [snd].
  destruct (Rlt_dec (- 1) (dot3 v x)) as [_|]; [discriminate|contradiction].
Qed.
Lemma trackball_axes b p ps p' q l : ab_constrain b = true -> ab_axes b = Some (map funit l) -> Forall good_axis l -> l <> [] ->
  ab_radius b <> 0 -> ab_qnow b = Some q -> unit_quat q ->
  exists a m0 m d, In a l /\
  arcball_matrix b = Some m0 /\ arcball_matrix (arcball_run (Down p :: map Drag ps ++ [Drag p']) b) = Some m /\
  proper_rotation d /\ (forall i, (i < 3)%nat -> turns d a i = a i) /\
  forall u i, (i < 3)%nat -> turns m u i = turns d (turns m0 u) i.
Proof.
  intros C AX G NE R0 Q U.
  assert (F : Forall good_faxis (map funit l)) by (apply Forall_map; eapply Forall_impl; [|exact G]; exact funit_good).
  assert (N : snd (arcball_step b (Down p)) = None).
  { cbn [arcball_step]. unfold arcball_down. destruct (sphere_total p (ab_center b) _ R0) as (x & X). rewrite X, C, AX. cbv zeta.
    apply sphere_unit in X as (X1 & X2 & _). destruct (nearest_axis x (map funit l)) eqn:NA; [reflexivity|]. exfalso. revert NA. apply nearest_some; try assumption.
    destruct l; [congruence|discriminate]. }
  destruct (trackball_axis b p ps p' q _ C AX F N R0 Q U) as (a & m0 & m & d & I & Ua & M0 & M & D & A & T).
  apply in_map_iff in I as (v & Ev & Iv). pose proof (good_nonzero v (proj1 (Forall_forall _ _) G v Iv)) as Z.
  exists v, m0, m, d. split; [exact Iv|]. split; [exact M0|]. split; [exact M|]. split; [exact D|]. split; [|exact T].
  unfold funit in Ev. destruct (Req_EM_T _ 0) as [E0|_]; [discriminate|]. injection Ev as <-. destruct (unit3_back v Z) as (s & Hs & _ & B).
  intros i Hi. specialize (A i Hi). unfold turns, inner in *. cbn [vsum] in *. rewrite (B 0%nat), (B 1%nat), (B 2%nat), (B i), <- A.
  set (u := unit3 v). ring.
Qed.
(** ** next *)
Lemma vsame_inner n p q : vsame n p q -> inner n p p = inner n q q.
Proof. intros H. unfold inner. assert (G : forall k, (k <= n)%nat -> vsum k (fun k => p k * p k) = vsum k (fun k => q k * q k)); [|apply G; lia].
  induction k as [|k IH]; intros Hk; [reflexivity|]. cbn. rewrite IH, H by lia. reflexivity. Qed.
Lemma qmatrix_ext p q : vsame 4 p q -> eps <= inner 4 p p -> same4 (quaternion_matrix p) (quaternion_matrix q).
Proof.
  intros H E i j Hi Hj. pose proof (vsame_inner 4 p q H) as N. rewrite (qmatrix_closed p E i j Hi Hj). rewrite (qmatrix_closed q) by (try lia; lra).
  rewrite N. unfold qm. rewrite !H by lia. reflexivity.
Qed.
Lemma slerp_2 p n : unit_quat p -> unit_quat n -> eps <= 1 - Rabs (inner 4 p n) ->
  vsame 4 (quaternion_slerp p n 2 0 true) (fun k => 2 * inner 4 p n * n k - p k).
Proof.
  intros P N D k Hk. unfold quaternion_slerp. destruct (Req_EM_T 2 0); [lra|]. destruct (Req_EM_T 2 1); [lra|]. cbv zeta.
  assert (ED : dot4 (unit4 p) (unit4 n) = inner 4 p n) by (unfold dot4; rewrite !unit4_id by assumption; unfold inner; cbn; ring).
  rewrite ED. set (d := inner 4 p n) in *. pose proof eps_pos as E0. pose proof eps_lt1 as E1. pose proof (Rabs_pos d) as A0.
  destruct (Rlt_dec (Rabs (Rabs d - 1)) eps) as [L|_]; [rewrite Rabs_left1 in L by lra; lra|].
  assert (G : forall c (r : vec), 0 <= c -> c = Rabs d -> (forall k, c * r k = d * n k) ->
    (if Rlt_dec (Rabs (acos c + IZR 0 * PI)) eps then unit4 p
     else vplus (vscale (sin ((1 - 2) * (acos c + IZR 0 * PI)) * (1 / sin (acos c + IZR 0 * PI))) (unit4 p))
            (vscale (sin (2 * (acos c + IZR 0 * PI)) * (1 / sin (acos c + IZR 0 * PI))) r)) k = 2 * d * n k - p k).
  { intros c r C0 Cd Cr. rewrite Rmult_0_l, Rplus_0_r. assert (CA : cos (acos c) = c) by (apply cos_acos; lra).
    destruct (acos_bound c) as [B0 B1]. assert (SP : 0 < sin (acos c)). { destruct (acos_bound_lt c ltac:(lra)). apply sin_gt_0; lra. }
    destruct (Rlt_dec _ eps) as [L|_].
    - exfalso. rewrite Rabs_pos_eq in L by lra. pose proof (one_minus_cos _ B0) as O. rewrite CA in O. nra.
    - unfold vplus, vscale. rewrite unit4_id by assumption. replace ((1 - 2) * acos c) with (- acos c) by ring. rewrite sin_neg, sin_2a, CA.
      replace (2 * d * n k) with (2 * (d * n k)) by ring. rewrite <- Cr. field. lra. }
  destruct (Rlt_dec d 0) as [L|L].
  - apply G; [lra|rewrite Rabs_left by lra; reflexivity|]. intros j. unfold vneg. rewrite unit4_id by assumption. ring.
  - apply G; [lra|rewrite Rabs_pos_eq by lra; reflexivity|]. intros j. rewrite unit4_id by assumption. reflexivity.
Qed.
Lemma again p n u i : unit_quat p -> unit_quat n -> eps <= 1 - Rabs (inner 4 p n) -> (i < 3)%nat ->
  turns (quaternion_matrix (quaternion_slerp p n 2 0 true)) u i =
  turns (quaternion_matrix n) (turns (transpose (quaternion_matrix p)) (turns (quaternion_matrix n) u)) i.
Proof.
  intros P N D Hi. pose proof P as P'. pose proof N as N'. unfold unit_quat in P', N'. pose proof eps_le1 as E1. assert (EP : eps <= inner 4 p p) by (rewrite P'; exact E1). assert (EN : eps <= inner 4 n n) by (rewrite N'; exact E1).
  assert (IP : unit_quat (quaternion_inverse p)).
  { unfold unit_quat, quaternion_inverse. cbv zeta. assert (C : dot4 (quaternion_conjugate p) (quaternion_conjugate p) = 1).
    { rewrite <- P'. unfold dot4, inner, quaternion_conjugate. cbn. ring. } rewrite C. transitivity (inner 4 p p); [unfold inner, quaternion_conjugate; cbn; field|exact P']. }
  assert (V : vsame 4 (quaternion_slerp p n 2 0 true) (quaternion_multiply (quaternion_multiply n (quaternion_inverse p)) n)).
  { intros k Hk. rewrite slerp_2 by assumption. transitivity (2 * inner 4 p n * n k - inner 4 n n * p k); [rewrite N'; ring|].
    assert (C : dot4 (quaternion_conjugate p) (quaternion_conjugate p) = 1). { rewrite <- P'. unfold dot4, inner, quaternion_conjugate. cbn. ring. }
    unfold quaternion_inverse. cbv zeta. rewrite C. unfold inner, quaternion_conjugate, quaternion_multiply. destruct k as [|[|[|[|k]]]]; [..|lia]; cbn; field. }
  set (np := quaternion_multiply n (quaternion_inverse p)) in *.
  assert (NP : unit_quat np) by (unfold unit_quat, np; rewrite mul_norm, N, IP; ring).
  assert (Q : unit_quat (quaternion_multiply np n)) by (unfold unit_quat; rewrite mul_norm, NP, N; ring).
  assert (S : same4 (quaternion_matrix (quaternion_slerp p n 2 0 true)) (product (product (quaternion_matrix n) (transpose (quaternion_matrix p))) (quaternion_matrix n))).
  { intros a b Ha Hb. rewrite (qmatrix_ext _ _ V) by (try assumption; rewrite (vsame_inner 4 _ _ V), Q; exact E1).
    rewrite (qmatrix_mul np n) by (try assumption; rewrite ?NP, ?N, ?Rmult_1_l; exact E1). unfold product. cbn [vsum].
    assert (M : forall c, (c < 4)%nat -> quaternion_matrix np a c = product (quaternion_matrix n) (transpose (quaternion_matrix p)) a c).
    { intros c Hc. unfold np. rewrite (qmatrix_mul n (quaternion_inverse p)) by (try assumption; rewrite ?N, ?IP, ?Rmult_1_l; exact E1). unfold product. cbn [vsum].
      assert (T : forall e, (e < 4)%nat -> quaternion_matrix (quaternion_inverse p) e c = transpose (quaternion_matrix p) e c).
      { intros e He. apply qmatrix_inverse; [exact EP|rewrite P, Rinv_1; exact E1|exact He|exact Hc]. }
      rewrite !T by lia. reflexivity. }
    rewrite !M by lia. reflexivity. }
  destruct (qmatrix_rotation n) as (((L1 & L2) & L3) & _). destruct (qmatrix_rotation p) as (((K1 & K2) & K3) & _).
  unfold turns, inner. cbn [vsum]. rewrite !S by lia. unfold product, transpose. cbn [vsum]. rewrite !L1, !L3, !K1, !K3 by lia. ring.
Qed.
Lemma next_repeats b pt p : ab_radius b <> 0 -> ab_qnow b = Some p -> unit_quat p ->
  forall n, ab_qnow (arcball_run [Drag pt] b) = Some n -> unit_quat n ->
  exists m0 m1 m2, arcball_matrix b = Some m0 /\ arcball_matrix (arcball_run [Drag pt] b) = Some m1 /\ arcball_matrix (arcball_run [Drag pt; Next 0] b) = Some m2 /\
  (eps <= 1 - Rabs (inner 4 p n) -> forall u i, (i < 3)%nat -> turns m2 u i = turns m1 (turns (transpose m0) (turns m1 u)) i).
Proof.
  intros R0 Q P n Hn N. change [Drag pt; Next 0] with ([Drag pt] ++ [Next 0]). rewrite run_app. set (b1 := arcball_run [Drag pt] b) in *.
  assert (PR : ab_qpre b1 = Some p).
  { unfold b1, arcball_run. cbn [fold_left arcball_step]. unfold arcball_drag. destruct (sphere_total pt (ab_center b) _ R0) as (x & X). rewrite X. cbn. exact Q. }
  unfold arcball_matrix. rewrite Q, Hn. unfold arcball_run. cbn [fold_left arcball_step fst]. unfold arcball_next. rewrite PR, Hn. cbn [ab_qnow].
  do 3 eexists. split; [reflexivity|]. split; [reflexivity|]. split; [reflexivity|]. intros D u i Hi.
  replace (2 + 0) with 2 by ring. apply again; assumption.
Qed.
