From Coq Require Import Lra Nsatz.
From Verif Require Import Base SpecTensor ModelTrans ModelDecomp SpecTrans SpecDecomp ProofTrans ProofRigid ProofQuat ProofEuler ProofDecomp ProofDecomp2 ProofRegister ProofRegister4.
Open Scope R_scope.
Notation length := List.length.

Local Ltac c4 i := destruct i as [|[|[|[|i]]]]; try lia.
Local Ltac c3 i := destruct i as [|[|[|i]]]; try lia.

(** ** matrix inverses *)
Lemma product_assoc a b c i j : product (product a b) c i j = product a (product b c) i j.
Proof. unfold product, vsum. ring. Qed.
Lemma affine_inverse_inverts : inverts affine_inverse.
Proof.
  intros A B AA H. pose proof AA as [A0 A1].
  assert (B3 : forall j, (j < 4)%nat -> B 3%nat j = if (3 =? j)%nat then 1 else 0).
  { intros j Hj. rewrite <- (H 3%nat j) by lia. unfold product, vsum. rewrite (A0 0%nat), (A0 1%nat), (A0 2%nat), A1 by lia. ring. }
  assert (D : det3 A <> 0).
  { intros Z. assert (E : det3 (mmul A B) = 1).
    { assert (EE : forall i j, (i < 3)%nat -> (j < 3)%nat -> mmul A B i j = if (i =? j)%nat then 1 else 0).
      { intros i j Hi Hj. rewrite <- (H i j) by lia. unfold mmul, product, vsum. rewrite B3 by lia. destruct (Nat.eqb_spec 3 j); [lia|]. ring. }
      unfold det3. rewrite !EE by lia. cbn. ring. }
    rewrite det3_mmul, Z in E. lra. }
  destruct (affine_inverse_ok A AA D) as [_ I2]. intros i j Hi Hj.
  transitivity (product (affine_inverse A) (product A B) i j).
  - transitivity (product (affine_inverse A) (fun i j => if (i =? j)%nat then 1 else 0) i j).
    + unfold product, vsum. c4 j; cbn; ring.
    + unfold product at 1 2. unfold vsum. rewrite !(fun k Hk => H k j Hk Hj) by lia. reflexivity.
  - rewrite <- product_assoc. unfold product at 1. unfold vsum. rewrite !(fun k Hk => I2 i k Hi Hk) by lia.
    unfold identity4. c4 i; cbn; ring.
Qed.
Lemma inv3_inverts3 : inverts3 inv3.
Proof.
  intros A B H.
  assert (D : det3 A <> 0).
  { intros Z. assert (E : det3 (mmul A B) = 1).
    { assert (EE : forall i j, (i < 3)%nat -> (j < 3)%nat -> mmul A B i j = if (i =? j)%nat then 1 else 0)
        by (intros i j Hi Hj; rewrite <- (H i j Hi Hj); unfold mmul, vsum; ring).
      unfold det3. rewrite !EE by lia. cbn. ring. }
    rewrite det3_mmul, Z in E. lra. }
  assert (L : forall i j, (i < 3)%nat -> (j < 3)%nat -> vsum 3 (fun k => inv3 A i k * A k j) = if (i =? j)%nat then 1 else 0).
  { intros i j Hi Hj. unfold det3 in D. unfold inv3, vsum, det3. c3 i; c3 j; cbn; field; exact D. }
  intros i j Hi Hj.
  transitivity (vsum 3 (fun k => inv3 A i k * vsum 3 (fun l => A k l * B l j))).
  - unfold vsum at 1. rewrite !(fun k Hk => H k j Hk Hj) by lia. c3 j; cbn; ring.
  - transitivity (vsum 3 (fun l => vsum 3 (fun k => inv3 A i k * A k l) * B l j)); [unfold vsum; ring|].
    unfold vsum at 1. rewrite !(fun l Hl => L i l Hi Hl) by lia. c3 i; cbn; ring.
Qed.

(** ** decompose_matrix refuses what has no inverse *)
Lemma decompose_error inv m : Rabs (m 3%nat 3%nat) < eps \/ det3 m = 0 -> decompose_matrix inv m = Raise ValueError.
Proof.
  intros H. unfold decompose_matrix. change (transpose4 m 3%nat 3%nat) with (m 3%nat 3%nat).
  destruct (Rlt_dec (Rabs (m 3%nat 3%nat)) eps) as [L|L]; [reflexivity|]. destruct H as [H|H]; [contradiction|].
  assert (N : m 3%nat 3%nat <> 0) by (intros E; rewrite E, Rabs_R0 in L; pose proof eps_pos; lra).
  cbv zeta. match goal with |- context [Req_EM_T ?a 0] => destruct (Req_EM_T a 0) as [Z|Z]; [reflexivity|exfalso; apply Z] end.
  transitivity (det3 m / (m 3%nat 3%nat * m 3%nat 3%nat * m 3%nat 3%nat)); [|rewrite H; unfold Rdiv; ring].
  unfold det4, minor4, setcol4, transpose4, det3, vec4. cbn. field. exact N.
Qed.
(** ** compose_matrix in order *)
Lemma factor_ok (o : option vec) (f g : vec -> mat4) M M' : (forall v, same4 (f v) (g v)) -> same4 M M' ->
  same4 (factor (option_map f o) M) (product M' (given o g)).
Proof.
  intros H E i j Hi Hj. destruct o as [v|]; cbn.
  - unfold mdot4, dot4, product, vsum. rewrite !(E i), !(fun k Hk => H v k j Hk Hj) by (assumption || lia). ring.
  - rewrite (E i j Hi Hj). unfold eye. c4 j; cbn; ring.
Qed.
Lemma compose_order s z a t p : exists M, compose_matrix s z a t p = Ok M /\
  let W := product (product (product (product (given p perspecting) (given t translating)) (given a turning)) (given z shearing)) (given s scaling) in
  same4 M (fun i j => W i j / W 3%nat 3%nat).
Proof.
  unfold compose_matrix.
  set (P := option_map (fun p : vec => fun i j => if (i =? 3)%nat then p j else identity4 i j) p).
  set (T := option_map (fun t => setcol identity4 t) t).
  set (Z := option_map (fun s : vec => mset (mset (mset identity4 1 2 (s 2%nat)) 0 2 (s 1%nat)) 0 1 (s 0%nat)) z).
  set (S := option_map (fun s : vec => mset (mset (mset identity4 0 0 (s 0%nat)) 1 1 (s 1%nat)) 2 2 (s 2%nat)) s).
  assert (H1 : same4 (factor P identity4) (given p perspecting)).
  { apply same4_trans with (product eye (given p perspecting)).
    - unfold P. apply factor_ok; [intros v i j _ _; reflexivity|intros i j _ _; reflexivity].
    - intros i j Hi Hj. unfold product, vsum, eye. c4 i; cbn; ring. }
  assert (H2 : same4 (factor T (factor P identity4)) (product (given p perspecting) (given t translating))).
  { unfold T. apply (factor_ok t (fun t => setcol identity4 t) translating); [|exact H1].
    intros v i j Hi Hj. unfold setcol, translating, identity4, eye. c4 i; c4 j; reflexivity. }
  set (B2 := factor T (factor P identity4)) in *.
  assert (H3 : exists B3, match a with None => Ok B2 | Some a => bind (euler_matrix (a 0%nat) (a 1%nat) (a 2%nat) (Name "sxyz")) (fun R => Ok (mdot4 B2 R)) end = Ok B3 /\
    same4 B3 (product (product (given p perspecting) (given t translating)) (given a turning))).
  { destruct a as [v|].
    - assert (LG : legal (Conv false AX AY AZ)) by (split; discriminate).
      destruct (euler_ok (Conv false AX AY AZ) (v 0%nat) (v 1%nat) (v 2%nat) LG) as (E & EE & ES & _).
      change (conv_name (Conv false AX AY AZ)) with "sxyz"%string in EE. rewrite EE. cbn [bind]. eexists. split; [reflexivity|].
      intros i j Hi Hj. unfold mdot4, dot4, product at 1, vsum. cbn [given]. unfold turning.
      rewrite !(H2 i), !(fun k Hk => ES k j Hk Hj) by (assumption || lia). ring.
    - exists B2. split; [reflexivity|]. intros i j Hi Hj. rewrite (H2 i j Hi Hj). unfold product at 2. unfold vsum. cbn [given]. unfold eye. c4 j; cbn; ring. }
  destruct H3 as (B3 & -> & H3). cbn [bind].
  assert (H4 : same4 (factor Z B3) (product (product (product (given p perspecting) (given t translating)) (given a turning)) (given z shearing))).
  { unfold Z. apply (factor_ok z (fun s : vec => mset (mset (mset identity4 1 2 (s 2%nat)) 0 2 (s 1%nat)) 0 1 (s 0%nat)) shearing); [|exact H3].
    intros v i j Hi Hj. unfold mset, shearing, identity4, eye. c4 i; c4 j; reflexivity. }
  assert (H5 : same4 (factor S (factor Z B3)) (product (product (product (product (given p perspecting) (given t translating)) (given a turning)) (given z shearing)) (given s scaling))).
  { unfold S. apply (factor_ok s (fun s : vec => mset (mset (mset identity4 0 0 (s 0%nat)) 1 1 (s 1%nat)) 2 2 (s 2%nat)) scaling); [|exact H4].
    intros v i j Hi Hj. unfold mset, scaling, identity4. c4 i; c4 j; reflexivity. }
  eexists. split; [reflexivity|]. cbv zeta. intros i j Hi Hj. cbv beta. rewrite (H5 i j Hi Hj), (H5 3%nat 3%nat) by lia. reflexivity.
Qed.

(** ** orthogonalization_matrix *)
Lemma co_cell sa sb ca cb cg : sa * sa = 1 - ca * ca -> sb * sb = 1 - cb * cb -> sa * sb <> 0 ->
  1 - (ca * cb - cg) / (sa * sb) * ((ca * cb - cg) / (sa * sb)) = (1 + 2 * ca * cb * cg - ca * ca - cb * cb - cg * cg) / ((sa * sb) * (sa * sb)).
Proof.
  intros A B N. apply Rmult_eq_reg_r with ((sa * sb) * (sa * sb)); [|apply Rmult_integral_contrapositive_currified; exact N].
  transitivity ((sa * sa) * (sb * sb) - (ca * cb - cg) * (ca * cb - cg)).
  - field. split; intros E; apply N; rewrite E; ring.
  - rewrite A, B. field. split; intros E; apply N; rewrite E; ring.
Qed.
Lemma cell_matrix (l d : vec) : let al := degrees (d 0%nat) in let be := degrees (d 1%nat) in let ga := degrees (d 2%nat) in
  0 < sin al -> 0 < sin be ->
  (cell al be ga < 0 -> orthogonalization_matrix l d = Raise ValueError) /\
  (0 <= cell al be ga -> exists O, orthogonalization_matrix l d = Ok O /\ linear O /\
    (forall k, (k < 3)%nat -> inner 3 (column O k) (column O k) = l k * l k) /\
    inner 3 (column O 1) (column O 2) = l 1%nat * l 2%nat * cos al /\
    inner 3 (column O 0) (column O 2) = l 0%nat * l 2%nat * cos be /\
    inner 3 (column O 0) (column O 1) = l 0%nat * l 1%nat * cos ga /\
    det3 O = l 0%nat * l 1%nat * l 2%nat * sqrt (cell al be ga)).
Proof.
  intros al be ga Pa Pb. unfold orthogonalization_matrix. change radians with degrees. fold al be ga.
  assert (Sa : sin al * sin al = 1 - cos al * cos al) by (apply sc1). assert (Sb : sin be * sin be = 1 - cos be * cos be) by (apply sc1).
  assert (Pp : 0 < sin al * sin be) by (apply Rmult_lt_0_compat; assumption).
  assert (N : sin al * sin be <> 0) by lra.
  rewrite (co_cell _ _ _ _ (cos ga) Sa Sb N). change (1 + 2 * cos al * cos be * cos ga - cos al * cos al - cos be * cos be - cos ga * cos ga) with (cell al be ga).
  assert (P2 : 0 < (sin al * sin be) * (sin al * sin be)) by (apply Rmult_lt_0_compat; exact Pp).
  destruct (Rlt_dec (cell al be ga / (sin al * sin be * (sin al * sin be))) 0) as [L|L]; split; intros H; try reflexivity.
  - exfalso. assert (0 <= cell al be ga / (sin al * sin be * (sin al * sin be))); [|lra].
    apply Rmult_le_pos; [exact H|left; apply Rinv_0_lt_compat, P2].
  - exfalso. apply L. apply Rmult_lt_reg_r with (sin al * sin be * (sin al * sin be)); [exact P2|].
    replace (cell al be ga / (sin al * sin be * (sin al * sin be)) * (sin al * sin be * (sin al * sin be))) with (cell al be ga) by (field; split; lra). lra.
  - set (q := cell al be ga / (sin al * sin be * (sin al * sin be))).
    assert (SQ : sqrt q * sqrt q = q) by (apply sqrt_sqrt; unfold q; lra).
    assert (Qc : q = 1 - (cos al * cos be - cos ga) / (sin al * sin be) * ((cos al * cos be - cos ga) / (sin al * sin be)))
      by (symmetry; apply co_cell; assumption).
    set (co := (cos al * cos be - cos ga) / (sin al * sin be)) in *.
    assert (Cc : sin al * sin be * co = cos al * cos be - cos ga) by (unfold co; field; split; lra).
    eexists. split; [reflexivity|]. split; [|split; [|split; [|split; [|split]]]].
    + split; [split|]; [intros k Hk; c3 k; reflexivity|reflexivity|intros k Hk; c3 k; reflexivity].
    + intros k Hk. unfold inner, column, vsum, rows4, vec4. c3 k; cbn.
      * transitivity (l 0%nat * l 0%nat * (sin be * sin be * (sqrt q * sqrt q + co * co) + cos be * cos be)); [ring|].
        rewrite SQ, Qc, Sb. ring.
      * transitivity (l 1%nat * l 1%nat * (sin al * sin al + cos al * cos al)); [ring|]. rewrite Sa. ring.
      * ring.
    + unfold inner, column, vsum, rows4, vec4. cbn. ring.
    + unfold inner, column, vsum, rows4, vec4. cbn. ring.
    + unfold inner, column, vsum, rows4, vec4. cbn.
      transitivity (l 0%nat * l 1%nat * (cos al * cos be - sin al * sin be * co)); [ring|]. rewrite Cc. ring.
    + assert (Q2 : sqrt (cell al be ga) = sin al * sin be * sqrt q).
      { apply sqrt_lem_1; [exact H|apply Rmult_le_pos; [lra|apply sqrt_pos]|].
        transitivity (sin al * sin be * (sin al * sin be) * (sqrt q * sqrt q)); [ring|]. rewrite SQ. unfold q. field. split; lra. }
      rewrite Q2. unfold det3, rows4, vec4. cbn. ring.
Qed.
