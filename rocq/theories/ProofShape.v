From Coq Require Import Nsatz.
From Verif Require Import Base SpecTensor ModelTrans SpecTrans ProofTrans ProofRigid.
Open Scope R_scope.
Notation length := List.length.

(** ** translation_matrix *)
Lemma translation_affine d : affine (translation_matrix d).
Proof. split; [intros k Hk; c3 k|]; reflexivity. Qed.
Lemma translation_maps d v : maps (translation_matrix d) v (fun k => v k + d k).
Proof. split; [apply translation_affine|]. intros i Hi. unfold inner. cbn [vsum]. unfold translation_matrix, setcol, identity4. c3 i; cbn; ring. Qed.
Lemma translation_add a b : same4 (product (translation_matrix a) (translation_matrix b)) (translation_matrix (fun k => a k + b k)).
Proof. intros i j Hi Hj. unfold product. cbn [vsum]. unfold translation_matrix, setcol, identity4. c4 i; c4 j; cbn; ring. Qed.
Lemma translation_back d : vsame 3 (translation_from_matrix (translation_matrix d)) d.
Proof. intros k Hk. c3 k; reflexivity. Qed.

(** ** scale_matrix *)
Lemma scale_affine f o d : affine (scale_matrix f o d).
Proof. unfold scale_matrix. destruct d, o; (split; [intros k Hk; c3 k|]); reflexivity. Qed.
Lemma scale_uniform f o v : maps (scale_matrix f (Some o) None) (fun k => o k + v k) (fun k => o k + f * v k) /\
  maps (scale_matrix f None None) v (fun k => f * v k).
Proof.
  split; (split; [apply scale_affine|]); intros i Hi; unfold inner; cbn [vsum]; unfold scale_matrix, setcol; c3 i; cbn; ring.
Qed.
Lemma scale_ij f o d i j : (i < 3)%nat -> (j < 3)%nat -> scale_matrix f o (Some d) i j = identity4 i j - (1 - f) * (unit3 d i * unit3 d j).
Proof. intros Hi Hj. destruct o; c3 i; c3 j; reflexivity. Qed.
Lemma scale_i3 f o d i : (i < 3)%nat -> scale_matrix f (Some o) (Some d) i 3%nat = (1 - f) * inner 3 o (unit3 d) * unit3 d i /\
  scale_matrix f None (Some d) i 3%nat = 0.
Proof. intros Hi. rewrite inner3_dot. c3 i; split; reflexivity. Qed.
Lemma scale_along f (o d v : vec) t : inner 3 d d <> 0 -> inner 3 v d = 0 ->
  maps (scale_matrix f (Some o) (Some d)) (fun k => o k + v k + t * d k) (fun k => o k + v k + f * t * d k) /\
  maps (scale_matrix f None (Some d)) (fun k => v k + t * d k) (fun k => v k + f * t * d k).
Proof.
  intros H Hv. destruct (unit3_back d H) as (s & Hs & _ & E). pose proof (unit3_norm d H) as U.
  assert (V : v 0%nat * unit3 d 0%nat + v 1%nat * unit3 d 1%nat + v 2%nat * unit3 d 2%nat = 0).
  { unfold inner in Hv. cbn [vsum] in Hv. rewrite (E 0%nat), (E 1%nat), (E 2%nat) in Hv. apply (Rmult_eq_reg_l s); lra. }
  split; (split; [apply scale_affine|]); intros i Hi; cbv beta;
    (rewrite (proj1 (scale_i3 f o d i Hi)) || rewrite (proj2 (scale_i3 f o d i Hi)));
    unfold inner; cbn [vsum]; rewrite !scale_ij by lia; rewrite !(E 0%nat), !(E 1%nat), !(E 2%nat), ?(E i);
    set (u0 := unit3 d 0%nat) in *; set (u1 := unit3 d 1%nat) in *; set (u2 := unit3 d 2%nat) in *;
    clear Hv E H; unfold identity4; c3 i; cbn; fold u0 u1 u2; nz.
Qed.

(** ** shear_matrix *)
Lemma shear_ok angle d p n m : shear_matrix angle d p n = Ok m ->
  Rabs (inner 3 (unit3 n) (unit3 d)) <= / 10 ^ 6 /\ affine m /\
  (forall i j, (i < 3)%nat -> (j < 3)%nat -> m i j = identity4 i j + tan angle * (unit3 d i * unit3 n j)) /\
  forall i, (i < 3)%nat -> m i 3%nat = - tan angle * inner 3 p (unit3 n) * unit3 d i.
Proof.
  rewrite inner3_dot. unfold shear_matrix. destruct (Rlt_dec _ _) as [C|C]; [discriminate|].
  intros [= <-]. split; [lra|]. split; [split; [intros k Hk; c3 k|]; reflexivity|]. split.
  - intros i j Hi Hj. c3 i; c3 j; reflexivity.
  - intros i Hi. rewrite inner3_dot. c3 i; reflexivity.
Qed.
Lemma shear_maps angle d p n m v : shear_matrix angle d p n = Ok m ->
  maps m (fun k => p k + v k) (fun k => p k + v k + tan angle * inner 3 v (unit3 n) * unit3 d k).
Proof.
  intros H. apply shear_ok in H as (_ & A & B & C). split; [exact A|]. intros i Hi. rewrite C by assumption.
  unfold inner. cbn [vsum]. rewrite !B by lia. unfold identity4. c3 i; cbn; ring.
Qed.
Lemma unit3_inner n v : inner 3 n n <> 0 -> (inner 3 v (unit3 n) = 0 <-> inner 3 v n = 0).
Proof.
  intros H. destruct (unit3_back n H) as (s & Hs & _ & E). unfold inner. cbn [vsum]. rewrite (E 0%nat), (E 1%nat), (E 2%nat).
  split; intros V; [nra|]. apply (Rmult_eq_reg_l s); [|lra]. lra.
Qed.
Lemma shear_fixes angle d p n m x : inner 3 n n <> 0 -> shear_matrix angle d p n = Ok m -> on_plane p n x -> maps m x x.
Proof.
  intros Hn H Hx. pose proof (shear_maps _ _ _ _ _ (fun k => x k - p k) H) as [A M]. split; [exact A|]. intros i Hi.
  specialize (M i Hi). cbv beta in M. unfold on_plane in Hx. rewrite (proj2 (unit3_inner n _ Hn) Hx) in M.
  unfold inner in *. cbn [vsum] in *. lra.
Qed.
Lemma shear_det angle d p n m : shear_matrix angle d p n = Ok m -> det3 m = 1 + tan angle * inner 3 (unit3 n) (unit3 d).
Proof.
  intros H. apply shear_ok in H as (_ & A & B & C). unfold det3. rewrite !B by lia. unfold identity4, inner. cbn. ring.
Qed.
Lemma shear_det1 angle d p n : inner 3 n n <> 0 -> inner 3 d d <> 0 -> inner 3 n d = 0 ->
  exists m, shear_matrix angle d p n = Ok m /\ det3 m = 1.
Proof.
  intros Hn Hd H. assert (E : inner 3 (unit3 n) (unit3 d) = 0).
  { destruct (unit3_back n Hn) as (s & Hs & _ & En). destruct (unit3_back d Hd) as (r & Hr & _ & Ed).
    unfold inner in *. cbn [vsum] in *. rewrite !(En 0%nat), !(En 1%nat), !(En 2%nat), !(Ed 0%nat), !(Ed 1%nat), !(Ed 2%nat) in H.
    apply (Rmult_eq_reg_l (s * r)); [lra|]. nra. }
  destruct (shear_matrix angle d p n) as [m|e] eqn:S.
  - exists m. split; [reflexivity|]. rewrite (shear_det _ _ _ _ _ S), E. ring.
  - exfalso. unfold shear_matrix in S. rewrite inner3_dot in E. destruct (Rlt_dec _ _) as [C|C]; [|discriminate].
    rewrite E, Rabs_R0 in C. assert (0 < / 10 ^ 6) by (apply Rinv_0_lt_compat, pow_lt; lra). lra.
Qed.
Lemma shear_rejects angle d p n : / 10 ^ 6 < Rabs (inner 3 (unit3 n) (unit3 d)) -> shear_matrix angle d p n = Raise ValueError.
Proof. rewrite inner3_dot. unfold shear_matrix. intros H. destruct (Rlt_dec _ _); [reflexivity|contradiction]. Qed.
Lemma shear_refuted : exists angle d p n m, inner 3 n n <> 0 /\ inner 3 d d <> 0 /\ shear_matrix angle d p n = Ok m /\ det3 m <> 1.
Proof.
  set (d := vec3 1 0 (/ 10 ^ 6)). set (n := vec3 0 0 1).
  assert (Pn : inner 3 n n = 1) by (unfold inner, n; cbn; ring).
  assert (P6 : 0 < / 10 ^ 6) by (apply Rinv_0_lt_compat, pow_lt; lra).
  assert (Pd : 1 < inner 3 d d) by (unfold inner, d; cbn [vsum vec3]; nra).
  assert (Un : forall k, unit3 n k = n k).
  { intros k. unfold unit3. rewrite <- inner3_dot, Pn, sqrt_1. field. }
  assert (E : inner 3 (unit3 n) (unit3 d) = / 10 ^ 6 / sqrt (inner 3 d d)).
  { unfold inner at 1. cbn [vsum]. rewrite !Un. unfold n at 1 2 3. unfold unit3. rewrite <- inner3_dot. cbn [vec3].
    replace (d 2%nat) with (/ 10 ^ 6) by reflexivity. unfold Rdiv. ring. }
  assert (S1 : 1 < sqrt (inner 3 d d)) by (rewrite <- sqrt_1 at 1; apply sqrt_lt_1; lra).
  assert (B : 0 < inner 3 (unit3 n) (unit3 d) <= / 10 ^ 6).
  { rewrite E. split; [apply Rdiv_lt_0_compat; lra|]. apply (Rmult_le_reg_r (sqrt (inner 3 d d))); [lra|]. unfold Rdiv.
    rewrite Rmult_assoc, Rinv_l by lra. nra. }
  exists (PI / 4), d, (fun _ => 0), n.
  destruct (shear_matrix (PI / 4) d (fun _ => 0) n) as [m|e] eqn:S.
  - exists m. split; [lra|]. split; [lra|]. split; [reflexivity|]. rewrite (shear_det _ _ _ _ _ S), tan_PI4. lra.
  - exfalso. unfold shear_matrix in S. rewrite inner3_dot in B. destruct (Rlt_dec _ _) as [C|C]; [|discriminate].
    rewrite Rabs_pos_eq in C; lra.
Qed.

(** ** projection_matrix *)
Lemma plane_unit p n x : inner 3 n n <> 0 -> (on_plane p n x <-> on_plane p (unit3 n) x).
Proof. intros H. unfold on_plane. rewrite unit3_inner by exact H. tauto. Qed.
Lemma proj_affine p n d b : affine (projection_matrix p n d None b).
Proof. unfold projection_matrix. destruct d; (split; [intros k Hk; c3 k|]); reflexivity. Qed.
Lemma proj_par (p n d : vec) b i : (i < 3)%nat ->
  (forall j, (j < 3)%nat -> projection_matrix p n (Some d) None b i j = identity4 i j - d i * unit3 n j / inner 3 d (unit3 n)) /\
  projection_matrix p n (Some d) None b i 3%nat = d i * (inner 3 p (unit3 n) / inner 3 d (unit3 n)).
Proof. intros Hi. rewrite !inner3_dot. split; [intros j Hj; c3 i; c3 j; reflexivity|c3 i; reflexivity]. Qed.
Lemma proj_orth (p n : vec) b i : (i < 3)%nat ->
  (forall j, (j < 3)%nat -> projection_matrix p n None None b i j = identity4 i j - unit3 n i * unit3 n j) /\
  projection_matrix p n None None b i 3%nat = inner 3 p (unit3 n) * unit3 n i.
Proof. intros Hi. rewrite !inner3_dot. split; [intros j Hj; c3 i; c3 j; reflexivity|c3 i; reflexivity]. Qed.
(** the orthogonal projection is the parallel one along the normal *)
Lemma proj_orth_par (p n : vec) b : inner 3 n n <> 0 -> same4 (projection_matrix p n None None b) (projection_matrix p n (Some (unit3 n)) None b).
Proof.
  intros H. apply affine_same; [apply proj_affine|apply proj_affine| |].
  - intros i j Hi Hj. rewrite (proj1 (proj_orth p n b i Hi)), (proj1 (proj_par p n _ b i Hi)) by exact Hj.
    pose proof (unit3_norm n H) as U. unfold inner. cbn [vsum]. replace (0 + _ + _ + _) with 1 by lra. field.
  - intros i Hi. rewrite (proj2 (proj_orth p n b i Hi)), (proj2 (proj_par p n _ b i Hi)).
    pose proof (unit3_norm n H) as U. unfold inner at 3. cbn [vsum]. replace (0 + _ + _ + _) with 1 by lra. field.
Qed.
Lemma same_maps a b x y : same4 a b -> maps b x y -> maps a x y.
Proof.
  intros S [[A1 A2] M]. split; [split|].
  - intros k Hk. rewrite S by lia. apply A1, Hk. - rewrite S by lia. exact A2.
  - intros i Hi. rewrite (M i Hi). unfold inner. cbn [vsum]. rewrite !S by lia. reflexivity.
Qed.
Lemma proj_par_maps (p n d : vec) b x : inner 3 d (unit3 n) <> 0 -> let t := inner 3 (fun k => p k - x k) (unit3 n) / inner 3 d (unit3 n) in
  maps (projection_matrix p n (Some d) None b) x (fun k => x k + t * d k).
Proof.
  intros H t. subst t. split; [apply proj_affine|]. intros i Hi. rewrite (proj2 (proj_par p n d b i Hi)).
  unfold inner at 3. cbn [vsum]. rewrite !(proj1 (proj_par p n d b i Hi)) by lia.
  set (dn := inner 3 d (unit3 n)) in *. clearbody dn. unfold inner. cbn [vsum]. unfold identity4. c3 i; cbn; field; exact H.
Qed.
Lemma inner_unit n v : inner 3 n n <> 0 -> exists s, 0 < s /\ inner 3 v n = s * inner 3 v (unit3 n).
Proof.
  intros H. destruct (unit3_back n H) as (s & Hs & _ & E). exists s. split; [exact Hs|]. unfold inner. cbn [vsum].
  rewrite (E 0%nat), (E 1%nat), (E 2%nat). ring.
Qed.
Lemma proj_parallel (p n d : vec) b x : inner 3 n n <> 0 -> inner 3 d n <> 0 ->
  exists t, maps (projection_matrix p n (Some d) None b) x (fun k => x k + t * d k) /\ on_plane p n (fun k => x k + t * d k).
Proof.
  intros Hn Hd. assert (D : inner 3 d (unit3 n) <> 0) by (rewrite unit3_inner; assumption).
  eexists. split; [apply proj_par_maps; exact D|]. apply plane_unit; [exact Hn|]. unfold on_plane.
  set (dn := inner 3 d (unit3 n)) in *. assert (Ed : dn = d 0%nat * unit3 n 0%nat + d 1%nat * unit3 n 1%nat + d 2%nat * unit3 n 2%nat) by (unfold dn, inner; cbn; ring).
  unfold inner. cbn [vsum]. set (a := (0 + _ + _ + _) / dn).
  assert (A : a * dn = (p 0%nat - x 0%nat) * unit3 n 0%nat + (p 1%nat - x 1%nat) * unit3 n 1%nat + (p 2%nat - x 2%nat) * unit3 n 2%nat) by (unfold a; field; exact D).
  rewrite Ed in A. clearbody a. lra.
Qed.
Lemma proj_orthogonal (p n : vec) b x : inner 3 n n <> 0 ->
  exists t, maps (projection_matrix p n None None b) x (fun k => x k + t * n k) /\ on_plane p n (fun k => x k + t * n k).
Proof.
  intros Hn. assert (D : inner 3 (unit3 n) n <> 0).
  { destruct (unit3_back n Hn) as (s & Hs & _ & E). pose proof (unit3_norm n Hn). unfold inner. cbn [vsum]. rewrite (E 0%nat), (E 1%nat), (E 2%nat).
    replace (_ + _) with (s * (unit3 n 0%nat * unit3 n 0%nat + unit3 n 1%nat * unit3 n 1%nat + unit3 n 2%nat * unit3 n 2%nat)) by ring. nra. }
  destruct (proj_parallel p n (unit3 n) b x Hn D) as (t & M & P). destruct (unit3_back n Hn) as (s & Hs & _ & E).
  exists (t / s). assert (X : forall k, x k + t / s * n k = x k + t * unit3 n k) by (intros k; rewrite (E k) at 1; field; lra).
  split.
  - apply (same_maps _ _ _ _ (proj_orth_par p n b Hn)). destruct M as [A M]. split; [exact A|]. intros i Hi. rewrite X. apply M, Hi.
  - unfold on_plane, inner in *. cbn [vsum] in *. rewrite !X. exact P.
Qed.
Lemma proj_par_idem (p n d : vec) b : inner 3 n n <> 0 -> inner 3 d n <> 0 ->
  same4 (product (projection_matrix p n (Some d) None b) (projection_matrix p n (Some d) None b)) (projection_matrix p n (Some d) None b).
Proof.
  intros Hn Hd. assert (D : inner 3 d (unit3 n) <> 0) by (rewrite unit3_inner; assumption).
  destruct (product_affine _ _ (proj_affine p n (Some d) b) (proj_affine p n (Some d) b)) as (PA & PB & PC).
  set (u := unit3 n) in *.
  assert (Ed : inner 3 d u = d 0%nat * u 0%nat + d 1%nat * u 1%nat + d 2%nat * u 2%nat) by (unfold inner; cbn; ring).
  apply affine_same; [exact PA|apply proj_affine| |].
  - intros i j Hi Hj. rewrite PB by assumption. unfold mmul. rewrite !(fun i Hi => proj1 (proj_par p n d b i Hi)) by lia.
    fold u. rewrite Ed in *. unfold identity4. c3 i; c3 j; cbn; field; exact D.
  - intros i Hi. rewrite PC by assumption. unfold inner at 1. cbn [vsum].
    rewrite (proj2 (proj_par p n d b 0 ltac:(lia))), (proj2 (proj_par p n d b 1 ltac:(lia))), (proj2 (proj_par p n d b 2 ltac:(lia))), (proj2 (proj_par p n d b i Hi)).
    rewrite !(proj1 (proj_par p n d b i Hi)) by lia. fold u. rewrite Ed in *. unfold identity4. c3 i; cbn; field; exact D.
Qed.
Lemma product_same a a' b b' : same4 a a' -> same4 b b' -> same4 (product a b) (product a' b').
Proof. intros A B i j Hi Hj. unfold product. cbn [vsum]. rewrite !A, !B by lia. reflexivity. Qed.
Lemma unit_n n : inner 3 n n <> 0 -> inner 3 (unit3 n) n <> 0.
Proof.
  intros Hn. destruct (unit3_back n Hn) as (s & Hs & _ & E). pose proof (unit3_norm n Hn). unfold inner. cbn [vsum]. rewrite (E 0%nat), (E 1%nat), (E 2%nat).
  replace (_ + _) with (s * (unit3 n 0%nat * unit3 n 0%nat + unit3 n 1%nat * unit3 n 1%nat + unit3 n 2%nat * unit3 n 2%nat)) by ring. nra.
Qed.
Lemma proj_orth_idem (p n : vec) b : inner 3 n n <> 0 ->
  same4 (product (projection_matrix p n None None b) (projection_matrix p n None None b)) (projection_matrix p n None None b).
Proof.
  intros Hn. pose proof (proj_orth_par p n b Hn) as S. eapply same4_trans; [apply (product_same _ _ _ _ S S)|].
  eapply same4_trans; [apply proj_par_idem; [exact Hn|apply unit_n, Hn]|]. apply same4_sym, S.
Qed.
(** *** perspective *)
Definition pers (p u e : vec) (b : bool) : mat4 := fun i j =>
  let f := if b then 1 else 0 in
  let c := inner 3 (fun k => e k - p k) u in
  match i, j with
  | 3%nat, 3%nat => inner 3 e u
  | 3%nat, _ => - u j
  | _, 3%nat => inner 3 p u * (e i + f * u i)
  | _, _ => (if (i =? j)%nat then c else 0) - e i * u j - f * (u i * u j)
  end.
Lemma pers_eq (p n : vec) d (e : vec) b : same4 (projection_matrix p n d (Some e) b) (pers p (unit3 n) e b).
Proof.
  intros i j Hi Hj. unfold pers. cbv zeta. rewrite !inner3_dot. destruct b; c4 i; c4 j;
    unfold projection_matrix, mset, setrow, setcol, set33, outer, vminus; cbn; ring.
Qed.
Lemma pers_w p u e b x : inner 3 (pers p u e b 3%nat) x + pers p u e b 3%nat 3%nat = inner 3 (fun k => e k - x k) u.
Proof. unfold inner, pers. cbn. ring. Qed.
Lemma pers_i p u e b x i : (i < 3)%nat -> inner 3 (pers p u e b i) x + pers p u e b i 3%nat =
  inner 3 (fun k => e k - p k) u * x i - inner 3 (fun k => x k - p k) u * (e i + (if b then 1 else 0) * u i).
Proof. intros Hi. unfold inner, pers. destruct b; c3 i; cbn; ring. Qed.
Lemma same_projects a b x y w : same4 a b -> projects b x y w -> projects a x y w.
Proof.
  intros S (W & W0 & M). split; [|split; [exact W0|]].
  - rewrite W. unfold inner. cbn [vsum]. rewrite !S by lia. reflexivity.
  - intros i Hi. rewrite (M i Hi). unfold inner. cbn [vsum]. rewrite !S by lia. reflexivity.
Qed.
Lemma proj_perspective (p n : vec) d (e : vec) x : inner 3 n n <> 0 -> inner 3 (fun k => e k - x k) n <> 0 ->
  exists t y w, projects (projection_matrix p n d (Some e) false) x y w /\ on_plane p n y /\ (forall k, (k < 3)%nat -> y k = e k + t * (x k - e k)).
Proof.
  intros Hn He. set (u := unit3 n).
  assert (D : inner 3 (fun k => e k - x k) u <> 0) by (unfold u; rewrite unit3_inner; assumption).
  set (w := inner 3 (fun k => e k - x k) u) in *. set (c := inner 3 (fun k => e k - p k) u).
  assert (Ew : w = (e 0%nat - x 0%nat) * u 0%nat + (e 1%nat - x 1%nat) * u 1%nat + (e 2%nat - x 2%nat) * u 2%nat) by (unfold w, inner; cbn; ring).
  assert (Ec : c = (e 0%nat - p 0%nat) * u 0%nat + (e 1%nat - p 1%nat) * u 1%nat + (e 2%nat - p 2%nat) * u 2%nat) by (unfold c, inner; cbn; ring).
  exists (c / w), (fun k => e k + c / w * (x k - e k)), w. split; [|split].
  - apply (same_projects _ _ _ _ _ (pers_eq p n d e false)). fold u. split; [symmetry; apply pers_w|]. split; [exact D|].
    intros i Hi. rewrite pers_i by exact Hi. fold c. replace (inner 3 (fun k => x k - p k) u) with (c - w).
    + field. exact D.
    + rewrite Ec, Ew. unfold inner. cbn. ring.
  - apply plane_unit; [exact Hn|]. fold u. unfold on_plane, inner. cbn [vsum].
    set (q := c / w). assert (Q : q * w = c) by (unfold q; field; exact D). clearbody q. rewrite Ew, Ec in Q. lra.
  - reflexivity.
Qed.
(** pseudo perspective: the same, moved along the normal in proportion to the depth below the plane *)
Lemma proj_pseudo (p n : vec) d (e : vec) x y w : inner 3 n n <> 0 -> projects (projection_matrix p n d (Some e) false) x y w ->
  projects (projection_matrix p n d (Some e) true) x (fun k => y k - inner 3 (fun k => x k - p k) (unit3 n) / w * unit3 n k) w.
Proof.
  intros Hn H. apply (same_projects _ _ _ _ _ (same4_sym _ _ (pers_eq p n d e false))) in H. destruct H as (W & W0 & M).
  apply (same_projects _ _ _ _ _ (pers_eq p n d e true)). split; [rewrite W, !pers_w; reflexivity|]. split; [exact W0|].
  intros i Hi. specialize (M i Hi). rewrite pers_i in M |- * by exact Hi. cbv zeta in *.
  set (h := inner 3 (fun k => x k - p k) (unit3 n)) in *. replace (h / w * unit3 n i) with (h * unit3 n i / w) by (field; exact W0).
  apply (Rmult_eq_compat_r 1) in M. replace ((y i - h * unit3 n i / w) * w) with (y i * w - h * unit3 n i) by (field; exact W0). lra.
Qed.
Lemma proj_pers_idem (p n : vec) d (e : vec) : let m := projection_matrix p n d (Some e) false in
  same4 (product m m) (fun i j => inner 3 (fun k => e k - p k) (unit3 n) * m i j).
Proof.
  intros m. subst m. pose proof (pers_eq p n d e false) as S. eapply same4_trans; [apply (product_same _ _ _ _ S S)|].
  intros i j Hi Hj. rewrite S by assumption. unfold product, pers, inner. c4 i; c4 j; cbn; ring.
Qed.
Lemma fixes_par (p n d : vec) b x : inner 3 n n <> 0 -> inner 3 d n <> 0 -> on_plane p n x -> maps (projection_matrix p n (Some d) None b) x x.
Proof.
  intros Hn Hd Hx. assert (D : inner 3 d (unit3 n) <> 0) by (rewrite unit3_inner; assumption).
  destruct (proj_par_maps p n d b x D) as [A M]. split; [exact A|]. intros i Hi. rewrite <- (M i Hi).
  apply (plane_unit p n x Hn) in Hx. unfold on_plane in Hx.
  replace (inner 3 (fun k => p k - x k) (unit3 n)) with (- inner 3 (fun k => x k - p k) (unit3 n)) by (unfold inner; cbn; ring).
  rewrite Hx. field. exact D.
Qed.
Lemma fixes_orth (p n : vec) b x : inner 3 n n <> 0 -> on_plane p n x -> maps (projection_matrix p n None None b) x x.
Proof. intros Hn Hx. apply (same_maps _ _ _ _ (proj_orth_par p n b Hn)). apply fixes_par; [exact Hn|apply unit_n, Hn|exact Hx]. Qed.
Lemma fixes_pers (p n : vec) d (e : vec) b x : inner 3 n n <> 0 -> inner 3 (fun k => e k - p k) n <> 0 -> on_plane p n x ->
  exists w, projects (projection_matrix p n d (Some e) b) x x w.
Proof.
  intros Hn He Hx. assert (D : inner 3 (fun k => e k - p k) (unit3 n) <> 0) by (rewrite unit3_inner; assumption).
  apply (plane_unit p n x Hn) in Hx. unfold on_plane in Hx.
  exists (inner 3 (fun k => e k - x k) (unit3 n)). apply (same_projects _ _ _ _ _ (pers_eq p n d e b)).
  assert (E : inner 3 (fun k => e k - x k) (unit3 n) = inner 3 (fun k => e k - p k) (unit3 n)) by (unfold inner in *; cbn [vsum] in *; lra).
  split; [symmetry; apply pers_w|]. split; [rewrite E; exact D|]. intros i Hi. rewrite pers_i by exact Hi. rewrite Hx, E. ring.
Qed.

(** ** clip_matrix *)
Lemma clip_rejects l r b t n f pe : (r <= l \/ t <= b \/ f <= n) -> clip_matrix l r b t n f pe = Raise ValueError.
Proof.
  intros H. unfold clip_matrix. destruct (Rle_dec r l); [reflexivity|]. destruct (Rle_dec t b); [reflexivity|].
  destruct (Rle_dec f n); [reflexivity|]. lra.
Qed.
Lemma clip_near l r b t n f : n <= eps -> clip_matrix l r b t n f true = Raise ValueError.
Proof.
  intros H. unfold clip_matrix. destruct (Rle_dec r l); [reflexivity|]. destruct (Rle_dec t b); [reflexivity|].
  destruct (Rle_dec f n); [reflexivity|]. destruct (Rle_dec n eps); [reflexivity|contradiction].
Qed.
Lemma clip_box l r b t n f sx sy sz : l < r -> b < t -> n < f ->
  exists m, clip_matrix l r b t n f false = Ok m /\
  maps m (vec3 (pick sx l r) (pick sy b t) (pick sz n f)) (vec3 (side sx) (side sy) (side sz)).
Proof.
  intros H1 H2 H3. unfold clip_matrix. destruct (Rle_dec r l); [lra|]. destruct (Rle_dec t b); [lra|].
  destruct (Rle_dec f n); [lra|]. eexists. split; [reflexivity|]. split; [split; [intros k Hk; c3 k|]; reflexivity|].
  intros i Hi. unfold inner. cbn [vsum]. c3 i; cbn [rows4 vec4 vec3]; destruct sx, sy, sz; cbn [pick side]; field; lra.
Qed.
Lemma clip_frustum l r b t n f sx sy sz : l < r -> b < t -> n < f -> eps < n ->
  exists m w, clip_matrix l r b t n f true = Ok m /\
  projects m (let z := pick sz n f in vec3 (pick sx l r * z / n) (pick sy b t * z / n) z) (vec3 (side sx) (side sy) (side sz)) w.
Proof.
  intros H1 H2 H3 H4. pose proof eps_pos. unfold clip_matrix. destruct (Rle_dec r l); [lra|]. destruct (Rle_dec t b); [lra|].
  destruct (Rle_dec f n); [lra|]. destruct (Rle_dec n eps); [lra|]. eexists. exists (- pick sz n f). split; [reflexivity|].
  cbv zeta. split; [|split].
  - unfold inner. cbn. ring.
  - destruct sz; cbn; lra.
  - intros i Hi. unfold inner. cbn [vsum]. c3 i; cbn [rows4 vec4 vec3]; destruct sx, sy, sz; cbn [pick side]; field; lra.
Qed.
(** ... and between the corners everything is inside *)
Lemma clip_inside l r b t n f x y z : l < r -> b < t -> n < f ->
  exists m x' y' z', clip_matrix l r b t n f false = Ok m /\ maps m (vec3 x y z) (vec3 x' y' z') /\
  ((l <= x <= r <-> - 1 <= x' <= 1) /\ (b <= y <= t <-> - 1 <= y' <= 1) /\ (n <= z <= f <-> - 1 <= z' <= 1)).
Proof.
  intros H1 H2 H3. unfold clip_matrix. destruct (Rle_dec r l); [lra|]. destruct (Rle_dec t b); [lra|].
  destruct (Rle_dec f n); [lra|]. eexists. exists (2 / (r - l) * x + (r + l) / (l - r)), (2 / (t - b) * y + (t + b) / (b - t)), (2 / (f - n) * z + (f + n) / (n - f)).
  split; [reflexivity|].
  assert (K : forall l r x, l < r -> (l <= x <= r <-> - 1 <= 2 / (r - l) * x + (r + l) / (l - r) <= 1)).
  { clear. intros l r x H. replace (2 / (r - l) * x + (r + l) / (l - r)) with ((2 * x - r - l) / (r - l)) by (field; lra).
    set (q := (2 * x - r - l) / (r - l)). assert (Q : q * (r - l) = 2 * x - r - l) by (unfold q; field; lra). clearbody q.
    split; intros [A B]; split; nra. }
  split; [|auto]. split; [split; [intros k Hk; c3 k|]; reflexivity|].
  intros i Hi. unfold inner. cbn [vsum]. c3 i; cbn [rows4 vec4 vec3]; ring.
Qed.
