(** Lists of eigenvectors for the examples and the counterexamples. *)
From Coq Require Import Lra Nsatz.
From Verif Require Import Base SpecTensor ModelTrans ModelFrom SpecTrans SpecFrom ProofTrans ProofRigid ProofEuler ProofFrom ProofFrom2 ProofFrom3 ProofFrom4 ProofFrom5.
Open Scope R_scope.
Notation length := List.length.

Definition rp (w : R) (v : vec) : epair := EPair w 0 v (fun _ => 0).
Definition h2 : R := / sqrt 2.
Lemma h2_sq : h2 * h2 = / 2.
Proof. unfold h2. rewrite <- Rinv_mult. rewrite sqrt_sqrt by lra. reflexivity. Qed.
Lemma h2_pos : 0 < h2.
Proof. unfold h2. apply Rinv_0_lt_compat, sqrt_lt_R0. lra. Qed.
Definition e1 : vec := vec4 1 0 0 0. Definition e2 : vec := vec4 0 1 0 0. Definition e3 : vec := vec4 0 0 1 0. Definition e4 : vec := vec4 0 0 0 1.
Lemma rank1_swap n m a g D N D' N' : rank1 n m a g D N -> (forall k, (k < n)%nat -> D k = D' k) -> (forall k, (k < n)%nat -> N k = N' k) -> rank1 n m a g D' N'.
Proof. intros H HD HN v i Hi. rewrite (H v i Hi), HD by exact Hi. f_equal. f_equal. f_equal. apply inner_ext; auto. Qed.
Definition good (n : nat) (alpha beta : R) (D N : vec) (p : epair) : Prop :=
  wi p = 0 /\ inner n (vr p) (vr p) = 1 /\ (forall i, vi p i = 0) /\
  ((wr p = alpha /\ inner n N (vr p) = 0) \/ (wr p = beta /\ exists c, forall i, (i < n)%nat -> vr p i = c * D i)).
Lemma good_right n m alpha gamma D N l : rank1 n m alpha gamma D N -> length l = n ->
  List.Forall (good n alpha (alpha + gamma * inner n N D) D N) l ->
  (exists p, In p l /\ wr p = alpha) -> (exists p, In p l /\ wr p = alpha + gamma * inner n N D) -> eig_right n m l.
Proof. intros K L F A B. apply (rank1_right n m alpha gamma D N l K L); auto. intros p Hp. rewrite List.Forall_forall in F. apply (F p Hp). Qed.
Lemma good_plane n alpha beta D N w v : w = alpha -> inner n v v = 1 -> inner n N v = 0 -> good n alpha beta D N (rp w v).
Proof. intros -> H1 H2. unfold good, rp. cbn [wr wi vr vi]. repeat split; auto. Qed.
Lemma good_top n alpha beta D N w v c : w = beta -> inner n v v = 1 -> (forall i, (i < n)%nat -> v i = c * D i) -> good n alpha beta D N (rp w v).
Proof. intros -> H1 H2. unfold good, rp. cbn [wr wi vr vi]. repeat split; auto. right. split; [reflexivity|]. now exists c. Qed.
Lemma unit3_of v : dot3 v v = 1 -> forall k, unit3 v k = v k.
Proof. intros H k. unfold unit3. rewrite H, sqrt_1. field. Qed.
Definition z3 : vec := vec3 0 0 1.
Lemma z3_unit k : unit3 z3 k = z3 k. Proof. apply unit3_of. unfold dot3, z3; cbn; ring. Qed.
Lemma z3_dot p : inner 3 p (unit3 z3) = p 2%nat.
Proof. unfold inner. cbn [vsum]. rewrite !z3_unit. unfold z3. cbn. ring. Qed.
Lemma z3_dot' p : dot3 p (unit3 z3) = p 2%nat. Proof. rewrite <- inner3_dot. apply z3_dot. Qed.
Lemma z3_nz : inner 3 z3 z3 <> 0. Proof. unfold inner, z3. cbn. lra. Qed.
Ltac ev := unfold inner, e1, e2, e3, e4, z3, ext; cbn; lra.
Ltac ev2 := pose proof h2_sq; unfold inner, e1, e2, e3, e4, z3, ext; cbn; lra.
Ltac ek := let k := fresh "k" in let H := fresh "H" in intros k H; first [c3 k|c4 k]; cbn; lra.
Definition diag34 : vec := vec4 0 0 h2 h2.
Lemma ends_diag w l : ends_at w (l ++ [rp w diag34]).
Proof. exists l, (rp w diag34). split; [reflexivity|]. split; [reflexivity|]. unfold rp, diag34. cbn. pose proof h2_pos. lra. Qed.

(** ** matrices [1 + g z z^T] that fix the plane z = 1: reflection, scale, projection *)
Lemma axis_rank3 m g : (forall i j, (i < 3)%nat -> (j < 3)%nat -> m i j = identity4 i j + g * (z3 i * z3 j)) -> rank1 3 m 1 g z3 z3.
Proof. apply block_rank1. Qed.
Definition l3 (w : R) : list epair := [rp w e3; rp 1 e1; rp 1 e2].
Definition l4 (w : R) : list epair := [rp w e3; rp 1 e1; rp 1 e2; rp 1 diag34].
Lemma l3_right m g : rank1 3 m 1 g z3 z3 -> eig_right 3 m (l3 (1 + g)).
Proof.
  intros K. assert (B : 1 + g = 1 + g * inner 3 z3 z3) by ev.
  apply (good_right 3 m 1 g z3 z3 _ K); [reflexivity| | |].
  - constructor; [apply good_top with (c := 1); [exact B|ev|ek]|]. constructor; [apply good_plane; [reflexivity|ev|ev]|]. constructor; [apply good_plane; [reflexivity|ev|ev]|]. constructor.
  - exists (rp 1 e1). split; [cbn; tauto|reflexivity].
  - exists (rp (1 + g) e3). split; [cbn; tauto|exact B].
Qed.
Lemma l4_right m g : rank1 4 m 1 g (ext z3 0) (ext z3 (- 1)) -> eig_right 4 m (l4 (1 + g)).
Proof.
  intros K. assert (B : 1 + g = 1 + g * inner 4 (ext z3 (- 1)) (ext z3 0)) by (unfold inner, ext, z3; cbn; ring).
  apply (good_right 4 m 1 g _ _ _ K); [reflexivity| | |].
  - constructor; [apply good_top with (c := 1); [exact B|ev|ek]|]. constructor; [apply good_plane; [reflexivity|ev|ev]|]. constructor; [apply good_plane; [reflexivity|ev|ev]|].
    constructor; [apply good_plane; [reflexivity|unfold diag34; ev2|unfold diag34; ev]|]. constructor.
  - exists (rp 1 e1). split; [cbn; tauto|reflexivity].
  - exists (rp (1 + g) e3). split; [cbn; tauto|exact B].
Qed.
Lemma l4_ends w : ends_at 1 (l4 w).
Proof. apply (ends_diag 1 [rp w e3; rp 1 e1; rp 1 e2]). Qed.
Lemma swap3 m g : rank1 3 m 1 g (unit3 z3) (unit3 z3) -> rank1 3 m 1 g z3 z3.
Proof. intros K. apply (rank1_swap _ _ _ _ _ _ _ _ K); intros; apply z3_unit. Qed.
Lemma swap4 m g p : p 2%nat = 1 -> rank1 4 m 1 g (ext (unit3 z3) 0) (ext (unit3 z3) (- inner 3 p (unit3 z3))) -> rank1 4 m 1 g (ext z3 0) (ext z3 (- 1)).
Proof.
  intros E K. rewrite z3_dot, E in K. apply (rank1_swap _ _ _ _ _ _ _ _ K); intros k Hk; unfold ext; rewrite !z3_unit; reflexivity.
Qed.
Definition up (w : R) : eigs := Eigs (fun _ => l3 w) (fun _ => l4 w).
Lemma up_reflection : let m := reflection_matrix z3 z3 in eig_right 3 m (eig3 (up (-1)) m) /\ eig_right 4 m (eig4 (up (-1)) m).
Proof.
  cbn [eig3 eig4 up]. replace (-1) with (1 + -2) by ring. split.
  - apply l3_right, swap3, refl_rank3.
  - apply l4_right. apply (swap4 _ _ z3); [reflexivity|]. apply refl_rank4.
Qed.
Lemma up_scale : let m := scale_matrix 2 (Some z3) (Some z3) in eig_right 3 m (eig3 (up 2) m) /\ eig_right 4 m (eig4 (up 2) m).
Proof.
  cbn [eig3 eig4 up]. replace (l3 2) with (l3 (1 + (2 - 1))) by (f_equal; ring). replace (l4 2) with (l4 (1 + (2 - 1))) by (f_equal; ring). split.
  - apply l3_right, swap3, scale_rank3.
  - apply l4_right. apply (swap4 _ _ z3); [reflexivity|]. apply scale_rank4.
Qed.
(** a direction of the plane listed last: no point *)
Definition back (w : R) : eigs := Eigs (fun _ => l3 w) (fun _ => rev (l4 w)).
Lemma right_rev n m l : eig_right n m l -> eig_right n m (rev l).
Proof.
  intros (A & B & C). split; [now rewrite rev_length|]. split.
  - intros p Hp. apply B. now apply in_rev.
  - intros q H1 H2. destruct (C q H1 H2) as (p & Ip & E). exists p. split; [now apply in_rev in Ip|exact E].
Qed.
Lemma reflection_no_point : exists e, let m := reflection_matrix z3 z3 in
  eig_right 3 m (eig3 e m) /\ eig_right 4 m (eig4 e m) /\ exists normal, reflection_from_matrix e m = Ok (None, normal).
Proof.
  exists (back (-1)). intros m. destruct up_reflection as [R3 R4]. fold m in R3, R4.
  split; [exact R3|]. split; [now apply right_rev|]. exists e3.
  unfold reflection_from_matrix. cbn [eig3 eig4 back]. unfold l3, l4, near. cbn [filter rev app rp wr].
  assert (A : Rabs (-1 - -1) < tol8) by (replace (-1 - -1) with 0 by ring; rewrite Rabs_R0; apply tol8_pos).
  assert (B : Rabs (1 - 1) < tol8) by (replace (1 - 1) with 0 by ring; rewrite Rabs_R0; apply tol8_pos).
  assert (C : ~ Rabs (-1 - 1) < tol8) by (rewrite Rabs_left by lra; pose proof tol8_small; lra).
  destruct (Rlt_dec (Rabs (-1 - -1)) tol8) as [_|]; [|contradiction].
  destruct (Rlt_dec (Rabs (1 - 1)) tol8) as [_|]; [|contradiction].
  destruct (Rlt_dec (Rabs (-1 - 1)) tol8) as [|_]; [contradiction|]. cbn [first final rev app vr rp].
  unfold homogeneous, rp. cbn [vr e1 vec4]. destruct (Req_EM_T 0 0) as [_|]; [reflexivity|contradiction].
Qed.
(** uniform scale *)
Definition uni : eigs := Eigs (fun _ => [rp 2 e1; rp 2 e2; rp 2 e3]) (fun _ => [rp 2 e1; rp 2 e2; rp 2 e3; rp 1 diag34]).
Lemma uni_right : let m := scale_matrix 2 (Some z3) None in eig_right 3 m (eig3 uni m) /\ eig_right 4 m (eig4 uni m).
Proof.
  intros m. cbn [eig3 eig4 uni]. split.
  - pose proof (uniform_rank3 2 (Some z3)) as K. apply (good_right 3 m 2 0 _ _ _ K); [reflexivity| | |].
    + constructor; [apply good_top with (c := 1); [ring|ev|ek]|]. constructor; [apply good_plane; [reflexivity|ev|ev]|]. constructor; [apply good_plane; [reflexivity|ev|ev]|]. constructor.
    + exists (rp 2 e1). split; [cbn; tauto|reflexivity].
    + exists (rp 2 e1). split; [cbn; tauto|]. cbn. ring.
  - pose proof (uniform_rank4 2 z3) as K. assert (B : 1 = 2 + (1 - 2) * inner 4 (vec4 0 0 0 1) (ext z3 1)) by ev. apply (good_right 4 m 2 _ _ _ _ K); [reflexivity| | |].
    + constructor; [apply good_plane; [reflexivity|ev|ev]|]. constructor; [apply good_plane; [reflexivity|ev|ev]|]. constructor; [apply good_plane; [reflexivity|ev|ev]|].
      constructor; [|constructor]. apply good_top with (c := h2); [exact B|unfold diag34; ev2|]. unfold diag34, ext, z3. ek.
    + exists (rp 2 e1). split; [cbn; tauto|reflexivity].
    + exists (rp 1 diag34). split; [cbn; tauto|]. exact B.
Qed.

(** ** projections *)
Lemma up_orthogonal : let m := projection_matrix z3 z3 None None false in
  eig_right 3 m (eig3 (up 0) m) /\ eig_right 3 (transposed m) (eig3 (up 0) (transposed m)) /\ eig_right 4 m (eig4 (up 0) m).
Proof.
  intros m. cbn [eig3 eig4 up]. replace 0 with (1 + -1) at 1 3 by ring. replace (l3 0) with (l3 (1 + -1)) by (f_equal; ring).
  assert (HM : same4 m (projection_matrix z3 z3 (Some (unit3 z3)) None false)) by apply orthogonal_parallel, z3_nz.
  assert (HB : forall i j, (i < 3)%nat -> (j < 3)%nat -> m i j = identity4 i j + -1 * (z3 i * z3 j)).
  { intros i j Hi Hj. rewrite HM by lia. rewrite parallel_block by lia. rewrite z3_dot', !z3_unit. unfold z3. cbn [vec3]. replace (/ 1) with 1 by field. ring. }
  assert (HC : forall i, (i < 3)%nat -> m i 3%nat = - (-1 * 1 * z3 i)).
  { intros i Hi. rewrite HM by lia. rewrite parallel_col by lia. rewrite z3_dot', z3_dot, !z3_unit. unfold z3. cbn [vec3]. field. }
  split; [|split].
  - apply l3_right, block_rank1, HB.
  - apply l3_right, transposed_rank1, HB.
  - apply l4_right. apply affine_rank1; [apply parallel_affine|exact HB|exact HC].
Qed.
(** along (1, 0, 1) on the plane z = 1 *)
Definition slant : vec := vec3 1 0 1.
Definition anti : vec := vec4 h2 0 (- h2) 0.
Definition slant4 : vec := vec4 h2 0 h2 0.
Definition par : eigs := Eigs (fun m => if Req_EM_T (m 0%nat 2%nat) 0 then [rp 0 e3; rp 1 e2; rp 1 anti] else [rp 0 slant4; rp 1 e1; rp 1 e2])
  (fun _ => [rp 0 slant4; rp 1 e1; rp 1 e2; rp 1 diag34]).
Lemma par_right : let m := projection_matrix z3 z3 (Some slant) None false in
  eig_right 3 m (eig3 par m) /\ eig_right 3 (transposed m) (eig3 par (transposed m)) /\ eig_right 4 m (eig4 par m) /\ ends_at 1 (eig4 par m).
Proof.
  intros m.
  assert (HB : forall i j, (i < 3)%nat -> (j < 3)%nat -> m i j = identity4 i j + -1 * (slant i * z3 j)).
  { intros i j Hi Hj. unfold m. rewrite parallel_block by lia. rewrite z3_dot', !z3_unit. unfold z3, slant. cbn [vec3]. replace (/ 1) with 1 by field. ring. }
  assert (HC : forall i, (i < 3)%nat -> m i 3%nat = - (-1 * 1 * slant i)).
  { intros i Hi. unfold m. rewrite parallel_col by lia. rewrite z3_dot', z3_dot. unfold z3, slant. cbn [vec3]. field. }
  assert (M02 : m 0%nat 2%nat = -1) by (rewrite HB by lia; cbn; ring).
  assert (M20 : transposed m 0%nat 2%nat = 0) by (unfold transposed; rewrite HB by lia; cbn; ring).
  cbn [eig3 eig4 par]. rewrite M02, M20.
  destruct (Req_EM_T (-1) 0) as [X|_]; [lra|]. destruct (Req_EM_T 0 0) as [_|X]; [|contradiction].
  split; [|split; [|split]].
  - pose proof (block_rank1 m _ _ _ HB) as K. assert (B : 0 = 1 + -1 * inner 3 z3 slant) by (unfold slant; ev).
    apply (good_right 3 m 1 _ _ _ _ K); [reflexivity| | |].
    + constructor; [apply good_top with (c := h2); [exact B|unfold slant4; ev2|unfold slant4, slant; ek]|].
      constructor; [apply good_plane; [reflexivity|ev|ev]|]. constructor; [apply good_plane; [reflexivity|ev|ev]|]. constructor.
    + exists (rp 1 e1). split; [cbn; tauto|reflexivity].
    + exists (rp 0 slant4). split; [cbn; tauto|exact B].
  - pose proof (transposed_rank1 m _ _ _ HB) as K. assert (B : 0 = 1 + -1 * inner 3 slant z3) by (unfold slant; ev).
    apply (good_right 3 (transposed m) 1 _ _ _ _ K); [reflexivity| | |].
    + constructor; [apply good_top with (c := 1); [exact B|ev|ek]|].
      constructor; [apply good_plane; [reflexivity|ev|unfold slant; ev]|]. constructor; [apply good_plane; [reflexivity|unfold anti; ev2|unfold slant, anti; ev]|]. constructor.
    + exists (rp 1 e2). split; [cbn; tauto|reflexivity].
    + exists (rp 0 e3). split; [cbn; tauto|exact B].
  - pose proof (affine_rank1 m _ _ _ 1 (parallel_affine _ _ _ _) HB HC) as K. assert (B : 0 = 1 + -1 * inner 4 (ext z3 (- 1)) (ext slant 0)) by (unfold slant; ev).
    apply (good_right 4 m 1 _ _ _ _ K); [reflexivity| | |].
    + constructor; [apply good_top with (c := h2); [exact B|unfold slant4; ev2|unfold slant4, slant, ext; ek]|].
      constructor; [apply good_plane; [reflexivity|ev|ev]|]. constructor; [apply good_plane; [reflexivity|ev|ev]|]. 
      constructor; [apply good_plane; [reflexivity|unfold diag34; ev2|unfold diag34; ev]|]. constructor.
    + exists (rp 1 e1). split; [cbn; tauto|reflexivity].
    + exists (rp 0 slant4). split; [cbn; tauto|exact B].
  - apply (ends_diag 1 [rp 0 slant4; rp 1 e1; rp 1 e2]).
Qed.
(** from (0, 0, 3) on the plane z = 1 *)
Definition unit4 (a : R) : vec := vec4 0 0 (a / sqrt (a * a + 1)) (/ sqrt (a * a + 1)).
Lemma unit4_one a : inner 4 (unit4 a) (unit4 a) = 1.
Proof.
  assert (P : 0 < a * a + 1) by (pose proof (Rle_0_sqr a) as X; unfold Rsqr in X; lra).
  assert (Q : sqrt (a * a + 1) <> 0) by (apply Rgt_not_eq, sqrt_lt_R0, P).
  unfold inner, unit4. cbn. transitivity ((a * a + 1) / (sqrt (a * a + 1) * sqrt (a * a + 1))); [field; exact Q|]. rewrite sqrt_sqrt by lra. field. lra.
Qed.
Definition q3 (a : R) : vec := vec3 0 0 a.
(** a point at height [a], the plane at height [b]; the second eigenvector has
    height [c] *)
Definition lp (w k c : R) (v : vec) : list epair := [rp w (unit4 c); rp k e1; rp k e2; rp k v].
Lemma persp_list b p a (v : vec) w : let k := a - p in let m := projection_matrix (q3 p) z3 None (Some (q3 a)) b in
  let c := if b then a + 1 else a in w = (if b then -1 else 0) -> inner 4 v v = 1 -> v 2%nat = p * v 3%nat -> eig_right 4 m (lp w k c v).
Proof.
  intros k m c Ew Hv Hp. pose proof (persp_rank4 (q3 p) z3 None (q3 a) b z3_nz) as K.
  change (rank1 4 m (dot3 (vminus (q3 a) (q3 p)) (unit3 z3)) (-1) (ext (shifted b (q3 a) (unit3 z3)) 1) (ext (unit3 z3) (- inner 3 (q3 p) (unit3 z3)))) in K.
  rewrite z3_dot', z3_dot in K. change (vminus (q3 a) (q3 p) 2%nat) with k in K. change (q3 p 2%nat) with p in K.
  apply rank1_swap with (D' := vec4 0 0 c 1) (N' := vec4 0 0 1 (- p)) in K.
  2: { intros i Hi. unfold ext, shifted, c, q3, vec4. c4 i; destruct b; rewrite ?z3_unit; cbn; ring. }
  2: { intros i Hi. unfold ext. c4 i; cbn [vec4]; rewrite ?z3_unit; reflexivity. }
  assert (B : w = k + -1 * inner 4 (vec4 0 0 1 (- p)) (vec4 0 0 c 1)) by (rewrite Ew; unfold inner, k, c; destruct b; cbn; ring).
  clearbody m. apply (good_right 4 m k _ _ _ _ K); [reflexivity| | |].
  - constructor; [|constructor; [apply good_plane; [reflexivity|ev|unfold inner, e1; cbn; ring]|constructor; [apply good_plane; [reflexivity|ev|unfold inner, e2; cbn; ring]|constructor; [apply good_plane; [reflexivity|exact Hv|]|constructor]]]].
    + apply good_top with (c := / sqrt (c * c + 1)); [exact B|apply unit4_one|]. intros i Hi. unfold unit4. c4 i; cbn [vec4]; unfold Rdiv; ring.
    + unfold inner. cbn [vsum vec4]. rewrite Hp. ring.
  - exists (rp k e1). split; [unfold lp; cbn; tauto|reflexivity].
  - exists (rp w (unit4 c)). split; [unfold lp; cbn; tauto|exact B].
Qed.
Lemma lp_ends w k c v : v 3%nat <> 0 -> ends_at k (lp w k c v).
Proof. intros H. exists [rp w (unit4 c); rp k e1; rp k e2], (rp k v). split; [reflexivity|]. split; [reflexivity|exact H]. Qed.
Lemma persp_00 p n d q : projection_matrix p n d (Some q) true 0%nat 0%nat
  = dot3 (vminus q p) (unit3 n) - q 0%nat * unit3 n 0%nat - unit3 n 0%nat * unit3 n 0%nat.
Proof. unfold projection_matrix, outer, setcol, set33, setrow, mset. cbn -[unit3 dot3]. ring. Qed.
(** the eigenvector of -1 listed last: another perspective point *)
Lemma pseudo_lost : exists e p n q, let m := projection_matrix p n None (Some q) true in
  inner 3 n n <> 0 /\ inner 3 p n <> 0 /\ eig_right 4 m (eig4 e m) /\
  exists P N E, projection_from_matrix e m true = Ok (Projection (Some P) N None (Some (Some E)) true) /\ ~ vsame 3 E q /\
  ~ same4 (projection_matrix P N None (Some E) true) m.
Proof.
  exists (Eigs (fun _ => []) (fun _ => rev (lp (-1) 2 4 diag34))), (q3 1), z3, (q3 3).
  intros m. split; [apply z3_nz|]. split; [unfold inner, q3, z3; cbn; lra|]. 
  pose proof (persp_list true 1 3 diag34 (-1) eq_refl) as R4. cbv zeta in R4.
  assert (S1 : inner 4 diag34 diag34 = 1) by (unfold diag34; ev2). specialize (R4 S1 ltac:(unfold diag34; cbn; ring)).
  assert (R4' : eig_right 4 m (lp (-1) 2 4 diag34)).
  { unfold m. replace (lp (-1) 2 4 diag34) with (lp (-1) (3 - 1) (3 + 1) diag34) by (f_equal; ring). exact R4. }
  split; [cbn [eig4]; now apply right_rev|].
  assert (S17 : sqrt (4 * 4 + 1) <> 0) by (apply Rgt_not_eq, sqrt_lt_R0; lra).
  assert (F : final (nonzero (rev (lp (-1) 2 4 diag34))) = Some (unit4 4)).
  { apply (nonzero_last [rp 2 diag34; rp 2 e2; rp 2 e1] (rp (-1) (unit4 4))). cbn [wr rp]. rewrite Rabs_left by lra. pose proof tol8_small. lra. }
  unfold projection_from_matrix. cbn [eig4]. rewrite F.
  assert (N3 : unit4 4 3%nat <> 0) by (unfold unit4; cbn; apply Rinv_neq_0_compat; exact S17).
  rewrite (hom_some _ N3). set (P := fun k => unit4 4 k / unit4 4 3%nat).
  assert (HP : P 0%nat = 0 /\ P 1%nat = 0 /\ P 2%nat = 4).
  { unfold P, unit4. cbn [vec4]. repeat split; field; exact S17. }
  destruct HP as (P0 & P1 & P2).
  assert (R : forall k, (k < 3)%nat -> - m 3%nat k = z3 k) by (intros k Hk; unfold m; rewrite persp_row by exact Hk; apply z3_unit).
  assert (D : dot3 P (fun k => - m 3%nat k) = 4) by (unfold dot3; rewrite !R by lia; rewrite P0, P1, P2; cbn; ring).
  rewrite D. destruct (Req_EM_T 4 0) as [X|_]; [lra|].
  assert (C : m 2%nat 3%nat = 4).
  { unfold m. rewrite persp_col by lia. rewrite z3_dot'. unfold shifted. rewrite z3_unit. unfold q3, z3. cbn. ring. }
  eexists P, _, _. split; [destruct (final (near 1 tol8 (rev (lp (-1) 2 4 diag34)))); reflexivity|]. split.
  - intros S. specialize (S 2%nat ltac:(lia)). cbn beta in S. rewrite C, R in S by lia. unfold z3, q3 in S. cbn in S. lra.
  - intros S. specialize (S 0%nat 0%nat ltac:(lia) ltac:(lia)).
    assert (U : forall k, (k < 3)%nat -> unit3 (fun k => - m 3%nat k) k = z3 k).
    { intros k Hk. unfold unit3. replace (dot3 (fun k => - m 3%nat k) (fun k => - m 3%nat k)) with 1 by (unfold dot3; rewrite !R by lia; cbn; ring).
      rewrite sqrt_1, R by exact Hk. field. }
    assert (M0 : m 0%nat 0%nat = 2).
    { unfold m. rewrite persp_00, z3_dot', !z3_unit. unfold vminus, q3, z3. cbn. ring. }
    rewrite M0, persp_00 in S. unfold dot3, vminus in S. rewrite !U in S by lia. rewrite P0, P1, P2, C, !R in S by lia. unfold z3 in S. cbn in S. lra.
Qed.

(** ** rotations *)
(** a quarter turn about the axis parallel to z through (1, 0, 0) *)
Definition point4 : vec := vec4 h2 0 0 h2.
Definition quarter : eigs := Eigs
  (fun _ => [EPair 0 1 (vec3 h2 0 0) (vec3 0 h2 0); EPair 0 (-1) (vec3 h2 0 0) (vec3 0 (- h2) 0); rp 1 e3])
  (fun _ => [EPair 0 1 (vec4 h2 0 0 0) (vec4 0 (- h2) 0 0); EPair 0 (-1) (vec4 h2 0 0 0) (vec4 0 h2 0 0); rp 1 e3; rp 1 point4]).
Lemma rot_right3 c s u m l : u 0%nat * u 0%nat + u 1%nat * u 1%nat + u 2%nat * u 2%nat = 1 -> s * s = 1 - c * c ->
  (forall i j, (i < 3)%nat -> (j < 3)%nat -> m i j = rod c s (u 0%nat) (u 1%nat) (u 2%nat) i j) -> length l = 3%nat ->
  (forall p, In p l -> eigenpair 3 m p /\ length2 3 p = 1 /\ (wi p = 0 -> forall i, (i < 3)%nat -> vi p i = 0)) ->
  (exists p, In p l /\ wr p = 1 /\ wi p = 0) -> (exists p, In p l /\ wr p = c /\ wi p = s) -> (exists p, In p l /\ wr p = c /\ wi p = - s) -> eig_right 3 m l.
Proof.
  intros U S HM L H A B C. split; [exact L|]. split; [exact H|]. intros q HE HL.
  destruct (rod_pair c s _ _ _ m q U S HM HE HL) as [(E1 & E2 & _)|[E1 E2]]; [rewrite E1, E2; exact A|]. rewrite E1.
  assert (Z : (wi q - s) * (wi q + s) = 0) by lra. apply Rmult_integral in Z. destruct Z as [Z|Z].
  - replace (wi q) with s by lra. exact B.
  - replace (wi q) with (- s) by lra. exact C.
Qed.
Lemma rot_right4 c s u m l : u 0%nat * u 0%nat + u 1%nat * u 1%nat + u 2%nat * u 2%nat = 1 -> s * s = 1 - c * c -> affine m ->
  (forall i j, (i < 3)%nat -> (j < 3)%nat -> m i j = rod c s (u 0%nat) (u 1%nat) (u 2%nat) i j) -> length l = 4%nat ->
  (forall p, In p l -> eigenpair 4 m p /\ length2 4 p = 1 /\ (wi p = 0 -> forall i, (i < 4)%nat -> vi p i = 0)) ->
  (exists p, In p l /\ wr p = 1 /\ wi p = 0) -> (exists p, In p l /\ wr p = c /\ wi p = s) -> (exists p, In p l /\ wr p = c /\ wi p = - s) -> eig_right 4 m l.
Proof.
  intros U S HA HM L H A B C. split; [exact L|]. split; [exact H|]. intros q HE HL.
  destruct (rigid_pair c s _ _ _ m q U S HA HM HE HL) as [(E1 & E2)|[E1 E2]]; [rewrite E1, E2; exact A|]. rewrite E1.
  assert (Z : (wi q - s) * (wi q + s) = 0) by lra. apply Rmult_integral in Z. destruct Z as [Z|Z].
  - replace (wi q) with s by lra. exact B.
  - replace (wi q) with (- s) by lra. exact C.
Qed.
Definition x3 : vec := vec3 1 0 0.
Lemma x3_unit k : unit3 x3 k = x3 k. Proof. apply unit3_of. unfold dot3, x3; cbn; ring. Qed.
Lemma x3_nz : inner 3 x3 x3 <> 0. Proof. unfold inner, x3. cbn. lra. Qed.
Ltac pair3 HT := split; [let i := fresh in let H := fresh in intros i H; unfold inner; cbn [wr wi vr vi vsum]; rewrite !HT by lia; unfold rod; c3 i; cbn; lra|].
Lemma quarter_right : let m := rotation_matrix (PI / 2) z3 (Some x3) in
  eig_right 3 (transposed m) (eig3 quarter (transposed m)) /\ eig_right 4 m (eig4 quarter m) /\ ends_at 1 (eig4 quarter m).
Proof.
  intros m. pose proof h2_sq as Q.
  assert (HB : forall i j, (i < 3)%nat -> (j < 3)%nat -> m i j = rod 0 1 0 0 1 i j).
  { intros i j Hi Hj. unfold m. rewrite rotation_of by (auto; intros; apply z3_unit). now rewrite cos_PI2, sin_PI2. }
  assert (HA : affine m) by apply rotation_affine.
  assert (HC : forall i, (i < 3)%nat -> m i 3%nat = vec3 1 (-1) 0 i).
  { intros i Hi. unfold m. rewrite (proj1 (rotation_column _ _ _ i Hi)). rewrite (inner_ext 3 _ _ (rod 0 1 0 0 1 i) x3); [|intros; now apply HB|reflexivity].
    rewrite rod_acts by exact Hi. unfold x3, cross. c3 i; cbn; ring. }
  assert (HT : forall i j, (i < 3)%nat -> (j < 3)%nat -> transposed m i j = rod 0 (-1) 0 0 1 i j).
  { intros i j Hi Hj. unfold transposed. rewrite HB by assumption. rewrite rod_transposed by assumption. reflexivity. }
  cbn [eig3 eig4 quarter]. clearbody m. split; [|split].
  - apply (rot_right3 0 (-1) z3); [unfold z3; cbn; ring|ring|exact HT|reflexivity| | | |].
    + intros p [<-|[<-|[<-|[]]]]; unfold rp.
      * pair3 HT. split; [unfold length2, inner; cbn; lra|]. cbn. intros; lra.
      * pair3 HT. split; [unfold length2, inner; cbn; lra|]. cbn. intros; lra.
      * unfold e3. pair3 HT. split; [unfold length2, inner; cbn; lra|]. cbn. intros; lra.
    + eexists. split; [right; right; left; reflexivity|]. split; reflexivity.
    + eexists. split; [right; left; reflexivity|]. cbn. split; lra.
    + eexists. split; [left; reflexivity|]. cbn. split; lra.
  - destruct HA as [A1 A2].
    assert (P4 : forall p, (forall i, (i < 4)%nat -> inner 4 (fun j => match i with 3%nat => e4 j | _ => match j with 3%nat => vec3 1 (-1) 0 i | _ => rod 0 1 0 0 1 i j end end) (vr p) = wr p * vr p i - wi p * vi p i /\
      inner 4 (fun j => match i with 3%nat => e4 j | _ => match j with 3%nat => vec3 1 (-1) 0 i | _ => rod 0 1 0 0 1 i j end end) (vi p) = wr p * vi p i + wi p * vr p i) -> eigenpair 4 m p).
    { intros p H i Hi. specialize (H i Hi). assert (I : forall v, inner 4 (m i) v = inner 4 (fun j => match i with 3%nat => e4 j | _ => match j with 3%nat => vec3 1 (-1) 0 i | _ => rod 0 1 0 0 1 i j end end) v).
      { intros v. apply inner_ext; [|reflexivity]. intros k Hk; destruct (Nat.eq_dec i 3) as [->|]; [destruct (Nat.eq_dec k 3) as [->|]; [exact A2|rewrite A1 by lia; c3 k; reflexivity]|destruct (Nat.eq_dec k 3) as [->|]; [rewrite HC by lia; c3 i; reflexivity|rewrite HB by lia; c3 i; c3 k; reflexivity]]. }
      rewrite !I. exact H. }
    apply (rot_right4 0 1 z3); [unfold z3; cbn; ring|ring|split; assumption|exact HB|reflexivity| | | |].
    + intros p [<-|[<-|[<-|[<-|[]]]]]; unfold rp, e3, point4.
      * split; [apply P4; intros i Hi; unfold inner, e4; c4 i; cbn; split; lra|]. split; [unfold length2, inner; cbn; lra|]. cbn. intros; lra.
      * split; [apply P4; intros i Hi; unfold inner, e4; c4 i; cbn; split; lra|]. split; [unfold length2, inner; cbn; lra|]. cbn. intros; lra.
      * split; [apply P4; intros i Hi; unfold inner, e4; c4 i; cbn; split; lra|]. split; [unfold length2, inner; cbn; lra|]. cbn. intros; lra.
      * split; [apply P4; intros i Hi; unfold inner, e4; c4 i; cbn; split; lra|]. split; [unfold length2, inner; cbn; lra|]. cbn. intros; lra.
    + eexists. split; [right; right; left; reflexivity|]. split; reflexivity.
    + eexists. split; [left; reflexivity|]. cbn. split; lra.
    + eexists. split; [right; left; reflexivity|]. cbn. split; lra.
  - exists [EPair 0 1 (vec4 h2 0 0 0) (vec4 0 (- h2) 0 0); EPair 0 (-1) (vec4 h2 0 0 0) (vec4 0 h2 0 0); rp 1 e3], (rp 1 point4).
    split; [reflexivity|]. split; [reflexivity|]. unfold rp, point4. cbn. pose proof h2_pos. lra.
Qed.
(** a small angle about x *)
Definition tiny (c s : R) : eigs := Eigs
  (fun _ => [rp 1 e1; EPair c s (vec3 0 h2 0) (vec3 0 0 h2); EPair c (- s) (vec3 0 h2 0) (vec3 0 0 (- h2))])
  (fun _ => [EPair c s (vec4 0 h2 0 0) (vec4 0 0 (- h2) 0); EPair c (- s) (vec4 0 h2 0 0) (vec4 0 0 h2 0); rp 1 e1; rp 1 e4]).
Lemma tiny_lost angle : 1 - tol8 < cos angle < 1 -> exists e, let m := rotation_matrix angle x3 (Some (fun _ => 0)) in
  eig_right 3 (transposed m) (eig3 e (transposed m)) /\ eig_right 4 m (eig4 e m) /\
  exists d P, rotation_from_matrix e m = Ok (0, d, Some P) /\ ~ same4 (rotation_matrix 0 d (Some P)) m.
Proof.
  intros Hc. pose proof h2_sq as Q. pose proof h2_pos as Qp. pose proof (sc1 angle) as SC. set (c := cos angle) in *. set (s := sin angle) in *.
  exists (tiny c s). intros m.
  assert (Ns : s <> 0). { intros Z. rewrite Z in SC. pose proof tol8_small. assert (E : (1 - c) * (1 + c) = 0) by lra. apply Rmult_integral in E. destruct E; lra. }
  assert (HB : forall i j, (i < 3)%nat -> (j < 3)%nat -> m i j = rod c s 1 0 0 i j).
  { intros i j Hi Hj. unfold m. rewrite rotation_of by (auto; intros; apply x3_unit). reflexivity. }
  assert (HA : affine m) by apply rotation_affine.
  assert (HC : forall i, (i < 3)%nat -> m i 3%nat = 0).
  { intros i Hi. unfold m. rewrite (proj1 (rotation_column _ _ _ i Hi)). rewrite inner_all0 by reflexivity. ring. }
  assert (HT : forall i j, (i < 3)%nat -> (j < 3)%nat -> transposed m i j = rod c (- s) 1 0 0 i j).
  { intros i j Hi Hj. unfold transposed. rewrite HB by assumption. now rewrite rod_transposed by assumption. }
  cbn [eig3 eig4 tiny]. clearbody m. split; [|split].
  - apply (rot_right3 c (- s) x3); [unfold x3; cbn; ring|lra|exact HT|reflexivity| | | |].
    + intros p [<-|[<-|[<-|[]]]]; unfold rp.
      * unfold e1. pair3 HT. split; [unfold length2, inner; cbn; lra|]. cbn. intros; lra.
      * pair3 HT. split; [unfold length2, inner; cbn; lra|]. cbn. intros Z; contradiction.
      * pair3 HT. split; [unfold length2, inner; cbn; lra|]. cbn. intros Z; lra.
    + eexists. split; [left; reflexivity|]. split; reflexivity.
    + eexists. split; [right; right; left; reflexivity|]. cbn. split; lra.
    + eexists. split; [right; left; reflexivity|]. cbn. split; lra.
  - destruct HA as [A1 A2].
    assert (P4 : forall p, (forall i, (i < 4)%nat -> inner 4 (fun j => match i with 3%nat => e4 j | _ => match j with 3%nat => 0 | _ => rod c s 1 0 0 i j end end) (vr p) = wr p * vr p i - wi p * vi p i /\
      inner 4 (fun j => match i with 3%nat => e4 j | _ => match j with 3%nat => 0 | _ => rod c s 1 0 0 i j end end) (vi p) = wr p * vi p i + wi p * vr p i) -> eigenpair 4 m p).
    { intros p H i Hi. specialize (H i Hi). assert (I : forall v, inner 4 (m i) v = inner 4 (fun j => match i with 3%nat => e4 j | _ => match j with 3%nat => 0 | _ => rod c s 1 0 0 i j end end) v).
      { intros v. apply inner_ext; [|reflexivity]. intros k Hk; destruct (Nat.eq_dec i 3) as [->|]; [destruct (Nat.eq_dec k 3) as [->|]; [exact A2|rewrite A1 by lia; c3 k; reflexivity]|destruct (Nat.eq_dec k 3) as [->|]; [rewrite HC by lia; c3 i; reflexivity|rewrite HB by lia; c3 i; c3 k; reflexivity]]. }
      rewrite !I. exact H. }
    apply (rot_right4 c s x3); [unfold x3; cbn; ring|lra|split; assumption|exact HB|reflexivity| | | |].
    + intros p [<-|[<-|[<-|[<-|[]]]]]; unfold rp, e1, e4.
      * split; [apply P4; intros i Hi; unfold inner, e4; c4 i; cbn; split; lra|]. split; [unfold length2, inner; cbn; lra|]. cbn. intros Z; contradiction.
      * split; [apply P4; intros i Hi; unfold inner, e4; c4 i; cbn; split; lra|]. split; [unfold length2, inner; cbn; lra|]. cbn. intros Z; lra.
      * split; [apply P4; intros i Hi; unfold inner, e4; c4 i; cbn; split; lra|]. split; [unfold length2, inner; cbn; lra|]. cbn. intros; lra.
      * split; [apply P4; intros i Hi; unfold inner, e4; c4 i; cbn; split; lra|]. split; [unfold length2, inner; cbn; lra|]. cbn. intros; lra.
    + eexists. split; [right; right; left; reflexivity|]. split; reflexivity.
    + eexists. split; [left; reflexivity|]. cbn. split; lra.
    + eexists. split; [right; left; reflexivity|]. cbn. split; lra.
  - assert (F3 : final (near 1 tol8 [rp 1 e1; EPair c s (vec3 0 h2 0) (vec3 0 0 h2); EPair c (- s) (vec3 0 h2 0) (vec3 0 0 (- h2))]) = Some (vec3 0 h2 0)).
    { apply (final_last _ [rp 1 e1; EPair c s (vec3 0 h2 0) (vec3 0 0 h2)] (EPair c (- s) (vec3 0 h2 0) (vec3 0 0 (- h2)))). cbn [wr].
      destruct (Rlt_dec (Rabs (c - 1)) tol8) as [|X]; [reflexivity|]. exfalso. apply X. rewrite Rabs_left by lra. lra. }
    assert (F4 : final (near 1 tol8 [EPair c s (vec4 0 h2 0 0) (vec4 0 0 (- h2) 0); EPair c (- s) (vec4 0 h2 0 0) (vec4 0 0 h2 0); rp 1 e1; rp 1 e4]) = Some e4).
    { apply (near_last 1 [EPair c s (vec4 0 h2 0 0) (vec4 0 0 (- h2) 0); EPair c (- s) (vec4 0 h2 0 0) (vec4 0 0 h2 0); rp 1 e1] (rp 1 e4)). reflexivity. }
    assert (N3 : e4 3%nat <> 0) by (unfold e4; cbn; lra).
    unfold rotation_from_matrix. cbn [eig3 eig4 tiny]. rewrite F3, F4, (hom_some e4 N3).
    assert (Tr : (m 0%nat 0%nat + m 1%nat 1%nat + m 2%nat 2%nat - 1) / 2 = c) by (rewrite !HB by lia; unfold rod; cbn; field).
    rewrite Tr. rewrite !HB by lia. unfold rod. cbn [vec3]. pose proof tol8_small.
    assert (H2 : tol8 < h2). { destruct (Rlt_le_dec tol8 h2) as [|X]; [assumption|]. exfalso. assert (h2 * h2 <= tol8 * tol8) by (apply Rmult_le_compat; lra). assert (tol8 * tol8 <= / 1000 * / 1000) by (pose proof tol8_pos; apply Rmult_le_compat; lra). lra. }
    destruct (Rlt_dec tol8 (Rabs 0)) as [X|_]; [rewrite Rabs_R0 in X; pose proof tol8_pos; lra|].
    destruct (Rlt_dec tol8 (Rabs h2)) as [_|X]; [|rewrite Rabs_pos_eq in X by lra; contradiction].
    eexists _, _. split.
    + do 3 f_equal. unfold atan2. destruct (Rlt_dec 0 c) as [_|X]; [|lra]. 
      match goal with |- atan (?x / c) = 0 => replace (x / c) with 0 by (field; split; lra) end. apply atan_0.
    + intros S. specialize (S 1%nat 1%nat ltac:(lia) ltac:(lia)). rewrite HB in S by lia. rewrite rotation_block in S by lia.
      unfold rod in S. rewrite cos_0, sin_0 in S. cbn in S. lra.
Qed.
Lemma tiny_angle : 1 - tol8 < cos (/ 10000) < 1.
Proof.
  replace (/ 10000) with (2 * / 20000) by field. rewrite cos_2a_sin.
  assert (S1 : 0 < sin (/ 20000)) by (apply sin_gt_0; [lra|pose proof PI2_3_2; lra]).
  assert (S2 : sin (/ 20000) < / 20000) by (apply sin_lt_x; lra).
  assert (S3 : sin (/ 20000) * sin (/ 20000) < / 20000 * / 20000) by (apply Rmult_gt_0_lt_compat; lra).
  assert (S4 : 0 < sin (/ 20000) * sin (/ 20000)) by (apply Rmult_lt_0_compat; lra).
  unfold tol8. split; [|lra]. assert (E : / 10 ^ 8 = / 100000000) by (f_equal; ring). rewrite E. lra.
Qed.

(** ** shear *)
Definition slide : eigs := Eigs (fun _ => [rp 1 e1; rp 1 e2; rp 1 e1]) (fun _ => [rp 1 e1; rp 1 e2; rp 1 e1; rp 1 diag34]).
Lemma slide_right angle : exists m, shear_matrix angle x3 z3 z3 = Ok m /\ eig_right 3 m (eig3 slide m) /\ eig_right 4 m (eig4 slide m) /\ ends_at 1 (eig4 slide m).
Proof.
  assert (Z : inner 3 x3 z3 = 0) by (unfold inner, x3, z3; cbn; ring).
  destruct (shear_ok angle x3 z3 z3 z3_nz Z) as (m & Em & A & B & C). exists m. split; [exact Em|].
  pose proof (block_rank1 m _ _ _ B) as K3. pose proof (affine_rank1 m _ _ _ _ A B C) as K4. rewrite z3_dot in K4. change (z3 2%nat) with 1 in K4.
  apply rank1_swap with (D' := x3) (N' := z3) in K3; [|intros; apply x3_unit|intros; apply z3_unit].
  apply rank1_swap with (D' := ext x3 0) (N' := ext z3 (- 1)) in K4; [|intros; unfold ext; rewrite !x3_unit; reflexivity|intros; unfold ext; rewrite !z3_unit; reflexivity].
  cbn [eig3 eig4 slide]. split; [|split].
  - apply (good_right 3 m 1 _ _ _ _ K3); [reflexivity| | |].
    + repeat (constructor; [apply good_plane; [reflexivity|ev|ev]|]). constructor.
    + exists (rp 1 e1). split; [cbn; tauto|reflexivity].
    + exists (rp 1 e1). split; [cbn; tauto|]. unfold inner, z3, x3, rp. cbn. ring.
  - apply (good_right 4 m 1 _ _ _ _ K4); [reflexivity| | |].
    + do 3 (constructor; [apply good_plane; [reflexivity|ev|ev]|]). constructor; [apply good_plane; [reflexivity|unfold diag34; ev2|unfold diag34; ev]|]. constructor.
    + exists (rp 1 e1). split; [cbn; tauto|reflexivity].
    + exists (rp 1 e1). split; [cbn; tauto|]. unfold inner, ext, z3, x3, rp. cbn. ring.
  - apply (ends_diag 1 [rp 1 e1; rp 1 e2; rp 1 e1]).
Qed.
Lemma slide_spans m : exists a b, In a (eig3 slide m) /\ In b (eig3 slide m) /\ ~ vsame 3 (cross (vr a) (vr b)) (fun _ => 0).
Proof.
  exists (rp 1 e1), (rp 1 e2). split; [cbn; tauto|]. split; [cbn; tauto|]. intros H. specialize (H 2%nat ltac:(lia)). unfold cross, rp, e1, e2 in H. cbn in H. lra.
Qed.
(** a steep one, slightly off the plane *)
Definition off : vec := vec3 1 0 (/ 10 ^ 7).
Lemma off_nz : inner 3 off off <> 0. Proof. unfold inner, off. cbn [vsum vec3]. pose proof (Rle_0_sqr (/ 10 ^ 7)) as X. unfold Rsqr in X. lra. Qed.
Lemma off_dot : / 20000000 <= inner 3 (unit3 z3) (unit3 off) <= / 10 ^ 7.
Proof.
  assert (P : 0 < / 10 ^ 7) by (apply Rinv_0_lt_compat, pow_lt; lra).
  assert (E : inner 3 (unit3 z3) (unit3 off) = / 10 ^ 7 / sqrt (dot3 off off)).
  { unfold inner. cbn [vsum]. rewrite !z3_unit. unfold z3. cbn [vec3]. unfold unit3. change (off 2%nat) with (/ 10 ^ 7). ring. }
  assert (T : / 10 ^ 7 = / 10000000) by (f_equal; ring).
  assert (Q : 1 <= sqrt (dot3 off off) <= 2).
  { assert (D : dot3 off off = 1 + / 10000000 * / 10000000) by (unfold dot3, off; cbn [vec3]; rewrite T; ring). rewrite D. split.
    - rewrite <- sqrt_1 at 1. apply sqrt_le_1; lra.
    - replace 2 with (sqrt (2 * 2)) by (apply sqrt_square; lra). apply sqrt_le_1; lra. }
  rewrite E, T. unfold Rdiv. split.
  - replace (/ 20000000) with (/ 10000000 * / 2) by field. apply Rmult_le_compat_l; [lra|]. apply Rinv_le_contravar; lra.
  - rewrite <- (Rmult_1_r (/ 10000000)) at 2. apply Rmult_le_compat_l; [lra|]. rewrite <- Rinv_1. apply Rinv_le_contravar; lra.
Qed.
Lemma off_steep : tol4 <= Rabs (tan (atan 2000) * inner 3 (unit3 z3) (unit3 off)).
Proof.
  rewrite tan_atan. pose proof off_dot as O. rewrite Rabs_pos_eq by lra. unfold tol4. assert (E : / 10 ^ 4 = / 10000) by (f_equal; ring). rewrite E. lra.
Qed.
Lemma off_ok : exists m e, shear_matrix (atan 2000) off z3 z3 = Ok m /\ eig_right 3 m (eig3 e m).
Proof.
  pose proof off_dot as O. unfold shear_matrix. rewrite <- inner3_dot.
  destruct (Rlt_dec (/ 10 ^ 6) (Rabs (inner 3 (unit3 z3) (unit3 off)))) as [X|_].
  { exfalso. rewrite Rabs_pos_eq in X by lra. assert (/ 10 ^ 7 <= / 10 ^ 6) by (apply Rinv_le_contravar; lra). lra. }
  eexists. match goal with |- exists e, Ok ?x = Ok _ /\ _ => set (m := x) end.
  set (w := 1 + tan (atan 2000) * inner 3 (unit3 z3) (unit3 off)).
  exists (Eigs (fun _ => [rp 1 e1; rp 1 e2; rp w (unit3 off)]) (fun _ => [])). split; [reflexivity|]. cbn [eig3].
  assert (B : forall i j, (i < 3)%nat -> (j < 3)%nat -> m i j = identity4 i j + tan (atan 2000) * (unit3 off i * unit3 z3 j)).
  { intros i j Hi Hj. unfold m, outer. c3 i; c3 j; unfold setcol, set33; cbn -[unit3]; ring. }
  pose proof (block_rank1 m _ _ _ B) as K.
  apply (good_right 3 m 1 _ _ _ _ K); [reflexivity| | |].
  - constructor; [apply good_plane; [reflexivity|ev|]|constructor; [apply good_plane; [reflexivity|ev|]|constructor; [|constructor]]].
    + unfold inner. cbn [vsum]. rewrite !z3_unit. unfold z3, e1. cbn. ring.
    + unfold inner. cbn [vsum]. rewrite !z3_unit. unfold z3, e2. cbn. ring.
    + apply good_top with (c := 1); [reflexivity|apply unit3_one, off_nz|]. intros; ring.
  - exists (rp 1 e1). split; [cbn; tauto|reflexivity].
  - exists (rp w (unit3 off)). split; [cbn; tauto|reflexivity].
Qed.
(** ** instances of the projections *)
Lemma diag34_one : inner 4 diag34 diag34 = 1. Proof. unfold diag34; ev2. Qed.
Lemma persp_example b : let m := projection_matrix (q3 1) z3 None (Some (q3 3)) b in
  exists e, inner 3 (q3 1) z3 <> 0 /\ inner 3 (fun i => q3 3 i - q3 1 i) (unit3 z3) = 2 /\ eig_right 4 m (eig4 e m) /\ ends_at 2 (eig4 e m).
Proof.
  intros m. set (c := if b then 3 + 1 else 3). set (w := if b then -1 else 0).
  exists (Eigs (fun _ => []) (fun _ => lp w 2 c diag34)). split; [unfold inner, q3, z3; cbn; lra|].
  split; [rewrite z3_dot; unfold q3; cbn; ring|]. cbn [eig4]. split.
  - pose proof (persp_list b 1 3 diag34 w eq_refl diag34_one ltac:(unfold diag34; cbn; ring)) as R4. cbv zeta in R4.
    replace 2 with (3 - 1) by ring. exact R4.
  - apply lp_ends. unfold diag34. cbn. pose proof h2_pos. lra.
Qed.
Lemma persp_example_one : let m := projection_matrix (q3 1) z3 None (Some (q3 2)) false in
  exists e, inner 3 (q3 1) (unit3 z3) = 1 /\ inner 3 (fun i => q3 2 i - q3 1 i) (unit3 z3) = 1 /\ eig_right 4 m (eig4 e m) /\ eig_right 3 m (eig3 e m).
Proof.
  intros m. exists (Eigs (fun _ => l3 (1 + -2)) (fun _ => lp 0 (2 - 1) 2 diag34)). split; [rewrite z3_dot; reflexivity|].
  split; [rewrite z3_dot; unfold q3; cbn; ring|]. cbn [eig3 eig4]. split.
  - apply (persp_list false 1 2 diag34 0 eq_refl diag34_one). unfold diag34; cbn; ring.
  - apply l3_right. apply block_rank1. intros i j Hi Hj. unfold m, projection_matrix, outer, vminus. rewrite !z3_dot'.
    c3 i; c3 j; unfold setcol, set33, setrow, mset; cbn -[unit3]; rewrite ?z3_unit; unfold z3; cbn; ring.
Qed.
Lemma persp_example_origin : let m := projection_matrix (q3 0) z3 None (Some (q3 2)) false in
  exists e, inner 3 (q3 0) z3 = 0 /\ inner 3 (fun i => q3 2 i - q3 0 i) (unit3 z3) = 2 /\ eig_right 4 m (eig4 e m) /\ ends_at 2 (eig4 e m).
Proof.
  intros m. exists (Eigs (fun _ => []) (fun _ => lp 0 2 2 e4)). split; [unfold inner, q3, z3; cbn; ring|].
  split; [rewrite z3_dot; unfold q3; cbn; ring|]. cbn [eig4]. split.
  - pose proof (persp_list false 0 2 e4 0 eq_refl ltac:(ev) ltac:(unfold e4; cbn; ring)) as R4. cbv zeta in R4.
    replace (2 - 0) with 2 in R4 by ring. exact R4.
  - apply lp_ends. unfold e4. cbn. lra.
Qed.
Lemma up_one : let m := scale_matrix 1 (Some z3) None in eig_right 3 m (eig3 (up 1) m) /\ eig_right 4 m (eig4 (up 1) m).
Proof.
  intros m. pose proof (scale_one (Some z3) None) as S. fold m in S. cbn [eig3 eig4 up].
  replace (l3 1) with (l3 (1 + 0)) by (f_equal; ring). replace (l4 1) with (l4 (1 + 0)) by (f_equal; ring). split.
  - apply l3_right. intros v i Hi. unfold inner. cbn [vsum]. rewrite !S by lia. c3 i; cbn; ring.
  - apply l4_right. intros v i Hi. unfold inner. cbn [vsum]. rewrite !S by lia. c4 i; cbn; ring.
Qed.
