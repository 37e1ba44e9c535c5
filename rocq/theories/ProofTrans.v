From Verif Require Import Base SpecTensor ModelTrans SpecTrans.
Open Scope R_scope.
Notation length := List.length.

Ltac c4 k := destruct k as [|[|[|[|k]]]]; [| | | |lia].
Ltac c3 k := destruct k as [|[|[|k]]]; [| | |lia].

Lemma eps_pos : 0 < eps.
Proof. unfold eps. apply Rinv_0_lt_compat, pow_lt. lra. Qed.
Lemma inner3_dot v w : inner 3 v w = dot3 v w.
Proof. unfold inner, dot3. cbn. ring. Qed.
Lemma inner4_dot v w : inner 4 v w = dot4 v w.
Proof. unfold inner, dot4. cbn. ring. Qed.
Lemma dot4_nonneg v : 0 <= dot4 v v.
Proof. unfold dot4. nra. Qed.
Lemma dot3_nonneg v : 0 <= dot3 v v.
Proof. unfold dot3. nra. Qed.

(** ** quaternion algebra *)
Lemma mul_hamilton p q : vsame 4 (quaternion_multiply p q) (qmul p q).
Proof. intros k Hk. c4 k; cbn; ring. Qed.
Lemma mul_assoc p q r : vsame 4 (quaternion_multiply (quaternion_multiply p q) r) (quaternion_multiply p (quaternion_multiply q r)).
Proof. intros k Hk. c4 k; cbn; ring. Qed.
Definition one_quat : vec := vec4 1 0 0 0.
Lemma mul_unit q : vsame 4 (quaternion_multiply one_quat q) q /\ vsame 4 (quaternion_multiply q one_quat) q.
Proof. split; intros k Hk; c4 k; cbn; ring. Qed.
Lemma mul_norm p q : inner 4 (quaternion_multiply p q) (quaternion_multiply p q) = inner 4 p p * inner 4 q q.
Proof. unfold inner. cbn. ring. Qed.
Lemma conj_mul p q : vsame 4 (quaternion_conjugate (quaternion_multiply p q)) (quaternion_multiply (quaternion_conjugate q) (quaternion_conjugate p)).
Proof. intros k Hk. c4 k; cbn; ring. Qed.
Lemma inverse_mul q : inner 4 q q <> 0 ->
  vsame 4 (quaternion_multiply q (quaternion_inverse q)) one_quat /\ vsame 4 (quaternion_multiply (quaternion_inverse q) q) one_quat.
Proof.
  intros H. assert (E : dot4 (quaternion_conjugate q) (quaternion_conjugate q) = inner 4 q q).
  { rewrite inner4_dot. unfold dot4, quaternion_conjugate. cbn. ring. }
  unfold quaternion_inverse. cbv zeta. rewrite E.
  assert (Eq : inner 4 q q = q 0%nat * q 0%nat + q 1%nat * q 1%nat + q 2%nat * q 2%nat + q 3%nat * q 3%nat) by (unfold inner; cbn; ring).
  rewrite Eq in *. clear E Eq.
  split; intros k Hk; c4 k; unfold quaternion_multiply, quaternion_conjugate; cbn; field; exact H.
Qed.

(** ** quaternion matrices *)
Definition qm (q : vec) (n : R) : mat4 :=
  rows4 (vec4 (1 - 2 * (q 2%nat * q 2%nat + q 3%nat * q 3%nat) / n) (2 * (q 1%nat * q 2%nat - q 3%nat * q 0%nat) / n) (2 * (q 1%nat * q 3%nat + q 2%nat * q 0%nat) / n) 0)
        (vec4 (2 * (q 1%nat * q 2%nat + q 3%nat * q 0%nat) / n) (1 - 2 * (q 1%nat * q 1%nat + q 3%nat * q 3%nat) / n) (2 * (q 2%nat * q 3%nat - q 1%nat * q 0%nat) / n) 0)
        (vec4 (2 * (q 1%nat * q 3%nat - q 2%nat * q 0%nat) / n) (2 * (q 2%nat * q 3%nat + q 1%nat * q 0%nat) / n) (1 - 2 * (q 1%nat * q 1%nat + q 2%nat * q 2%nat) / n) 0)
        (vec4 0 0 0 1).
Lemma outer_scaled n q i j : 0 < n -> outer (vscale (sqrt (2 / n)) q) (vscale (sqrt (2 / n)) q) i j = 2 / n * (q i * q j).
Proof.
  intros Hn. unfold outer, vscale. replace (sqrt (2 / n) * q i * (sqrt (2 / n) * q j)) with (sqrt (2 / n) * sqrt (2 / n) * (q i * q j)) by ring.
  rewrite sqrt_sqrt; [reflexivity|]. apply Rlt_le, Rdiv_lt_0_compat; lra.
Qed.
Lemma qmatrix_closed q : eps <= inner 4 q q -> same4 (quaternion_matrix q) (qm q (inner 4 q q)).
Proof.
  intros H. pose proof eps_pos as He. rewrite inner4_dot in *. unfold quaternion_matrix.
  destruct (Rlt_dec (dot4 q q) eps) as [C|_]; [lra|].
  set (n := dot4 q q) in *. set (o := outer _ _).
  assert (O : forall i j, o i j = 2 / n * (q i * q j)) by (intros; apply outer_scaled; lra).
  intros i j Hi Hj. c4 i; c4 j; cbn; rewrite ?O; try reflexivity; field; lra.
Qed.
Lemma qm_rotation q n : n = inner 4 q q -> 0 < n -> proper_rotation (qm q n).
Proof.
  intros E H. assert (E' : n = q 0%nat * q 0%nat + q 1%nat * q 1%nat + q 2%nat * q 2%nat + q 3%nat * q 3%nat) by (rewrite E; unfold inner; cbn; ring).
  assert (Hn : q 0%nat * q 0%nat + q 1%nat * q 1%nat + q 2%nat * q 2%nat + q 3%nat * q 3%nat <> 0) by lra.
  split; [|split].
  - split; [split|]; [intros k Hk; c3 k; reflexivity|reflexivity|intros k Hk; c3 k; reflexivity].
  - intros a b Ha Hb. c3 a; c3 b; unfold mmul, transpose, delta3; cbn; rewrite E'; split; field; exact Hn.
  - unfold det3. cbn. rewrite E'. field. exact Hn.
Qed.
Lemma same4_rotation a b : same4 a b -> proper_rotation a -> proper_rotation b.
Proof.
  intros S ([[A1 A2] A3] & O & D). split; [split; [split|]|split].
  - intros k Hk. rewrite <- S by lia. auto.
  - rewrite <- S by lia. auto.
  - intros k Hk. rewrite <- S by lia. auto.
  - intros i j Hi Hj. specialize (O i j Hi Hj). unfold mmul, transpose in *. rewrite <- !S by lia. exact O.
  - unfold det3 in *. rewrite <- !S by lia. exact D.
Qed.
Lemma same4_sym a b : same4 a b -> same4 b a.
Proof. intros H i j Hi Hj. symmetry. auto. Qed.
Lemma same4_trans a b c : same4 a b -> same4 b c -> same4 a c.
Proof. intros H K i j Hi Hj. rewrite H, K; auto. Qed.
Lemma identity_rotation : proper_rotation identity4.
Proof.
  split; [split; [split|]|split]; try (intros k Hk; c3 k; reflexivity); try reflexivity.
  - intros a b Ha Hb. c3 a; c3 b; unfold mmul, transpose, delta3, identity4; cbn; lra.
  - unfold det3, identity4. cbn. ring.
Qed.
Lemma qmatrix_rotation q : proper_rotation (quaternion_matrix q).
Proof.
  destruct (Rlt_dec (inner 4 q q) eps) as [C|C].
  - unfold quaternion_matrix. rewrite inner4_dot in C. destruct (Rlt_dec _ eps) as [_|C']; [|lra]. apply identity_rotation.
  - apply Rnot_lt_le in C. eapply same4_rotation; [apply same4_sym, qmatrix_closed, C|].
    apply qm_rotation; [reflexivity|]. pose proof eps_pos. lra.
Qed.
Lemma inner_scale s q : inner 4 (vscale s q) (vscale s q) = s ^ 2 * inner 4 q q.
Proof. unfold inner, vscale. cbn. ring. Qed.
Lemma qmatrix_scale s q : eps <= inner 4 q q -> eps <= s ^ 2 * inner 4 q q ->
  same4 (quaternion_matrix (vscale s q)) (quaternion_matrix q).
Proof.
  intros H1 H2. pose proof eps_pos as He.
  assert (Hs : s <> 0). { intros ->. rewrite pow_i in H2 by lia. lra. }
  eapply same4_trans; [apply qmatrix_closed; now rewrite inner_scale|].
  eapply same4_trans; [|apply same4_sym, qmatrix_closed, H1].
  rewrite inner_scale. set (n := inner 4 q q) in *. assert (Hn : n <> 0) by lra. clearbody n.
  intros i j Hi Hj. c4 i; c4 j; unfold qm, vscale; cbn; try reflexivity; field; split; assumption.
Qed.
Lemma qmatrix_mul p q : eps <= inner 4 p p -> eps <= inner 4 q q -> eps <= inner 4 p p * inner 4 q q ->
  same4 (quaternion_matrix (quaternion_multiply p q)) (product (quaternion_matrix p) (quaternion_matrix q)).
Proof.
  intros Hp Hq Hpq. pose proof eps_pos as He.
  assert (P : same4 (product (quaternion_matrix p) (quaternion_matrix q)) (product (qm p (inner 4 p p)) (qm q (inner 4 q q)))).
  { intros i j Hi Hj. unfold product. cbn [vsum]. rewrite !(qmatrix_closed p Hp), !(qmatrix_closed q Hq) by lia. reflexivity. }
  eapply same4_trans; [apply qmatrix_closed; now rewrite mul_norm|]. eapply same4_trans; [|apply same4_sym, P].
  rewrite mul_norm.
  assert (Np : inner 4 p p <> 0) by lra. assert (Nq : inner 4 q q <> 0) by lra.
  assert (Ep : inner 4 p p = p 0%nat * p 0%nat + p 1%nat * p 1%nat + p 2%nat * p 2%nat + p 3%nat * p 3%nat) by (unfold inner; cbn; ring).
  assert (Eq : inner 4 q q = q 0%nat * q 0%nat + q 1%nat * q 1%nat + q 2%nat * q 2%nat + q 3%nat * q 3%nat) by (unfold inner; cbn; ring).
  rewrite Ep in Np |- *. rewrite Eq in Nq |- *. clear - Np Nq.
  intros i j Hi Hj. c4 i; c4 j; unfold product, qm, quaternion_multiply; cbn; try ring; field; split; assumption.
Qed.
Lemma inverse_norm q : inner 4 q q <> 0 -> inner 4 (quaternion_inverse q) (quaternion_inverse q) = / inner 4 q q.
Proof.
  intros H. assert (E : dot4 (quaternion_conjugate q) (quaternion_conjugate q) = inner 4 q q).
  { rewrite inner4_dot. unfold dot4, quaternion_conjugate. cbn. ring. }
  unfold quaternion_inverse. rewrite E. rewrite !inner4_dot in *. unfold dot4 at 1. unfold quaternion_conjugate. cbn.
  unfold dot4 in *. field. exact H.
Qed.
Lemma qmatrix_inverse q : eps <= inner 4 q q -> eps <= / inner 4 q q ->
  same4 (quaternion_matrix (quaternion_inverse q)) (transpose (quaternion_matrix q)).
Proof.
  intros H1 H2. pose proof eps_pos as He.
  eapply same4_trans; [apply qmatrix_closed; rewrite inverse_norm by lra; exact H2|].
  rewrite inverse_norm by lra. intros i j Hi Hj. unfold transpose. rewrite (qmatrix_closed q H1) by lia.
  assert (E : dot4 (quaternion_conjugate q) (quaternion_conjugate q) = inner 4 q q).
  { rewrite inner4_dot. unfold dot4, quaternion_conjugate. cbn. ring. }
  unfold quaternion_inverse. cbv zeta. rewrite E. set (n := inner 4 q q) in *.
  assert (Hn : n <> 0) by lra. clearbody n.
  unfold qm, quaternion_conjugate. c4 i; c4 j; cbn; try reflexivity; field; exact Hn.
Qed.
(** q v q* = |q|^2 R v *)
Lemma qmatrix_acts q v : eps <= inner 4 q q ->
  vsame 4 (qmul (qmul q (vec4 0 (v 0%nat) (v 1%nat) (v 2%nat))) (quaternion_conjugate q))
    (vscale (inner 4 q q) (vec4 0 (inner 3 (quaternion_matrix q 0%nat) v) (inner 3 (quaternion_matrix q 1%nat) v) (inner 3 (quaternion_matrix q 2%nat) v))).
Proof.
  intros H. pose proof eps_pos as He.
  assert (R : forall i, (i < 3)%nat -> inner 3 (quaternion_matrix q i) v = inner 3 (qm q (inner 4 q q) i) v).
  { intros i Hi. unfold inner at 1 2. cbn [vsum]. rewrite !(qmatrix_closed q H) by lia. reflexivity. }
  rewrite !R by lia. assert (Eq : inner 4 q q = q 0%nat * q 0%nat + q 1%nat * q 1%nat + q 2%nat * q 2%nat + q 3%nat * q 3%nat) by (unfold inner; cbn; ring).
  assert (Hn : inner 4 q q <> 0) by lra. rewrite Eq in Hn |- *. clear - Hn. intros k Hk. c4 k; unfold vscale, inner, qm, quaternion_conjugate, qmul; cbn; try ring; field; exact Hn.
Qed.

(** ** products of rotations *)
Lemma product_linear a b : linear a -> linear b -> linear (product a b) /\
  forall i j, (i < 3)%nat -> (j < 3)%nat -> product a b i j = mmul a b i j.
Proof.
  intros [[A1 A2] A3] [[B1 B2] B3]. split; [split; [split|]|].
  - intros k Hk. unfold product. cbn. rewrite !A1, A2, B1 by lia. ring.
  - unfold product. cbn. rewrite !A1, A2, B2 by lia. ring.
  - intros k Hk. unfold product. cbn. rewrite !B3, A3 by lia. ring.
  - intros i j Hi Hj. unfold product, mmul. cbn. rewrite A3, B1 by lia. ring.
Qed.
Lemma mmul_orth a b : (forall i j, (i < 3)%nat -> (j < 3)%nat -> mmul a b i j = delta3 i j) ->
  forall c d, (forall i j, (i < 3)%nat -> (j < 3)%nat -> mmul c d i j = delta3 i j) ->
  forall i j, (i < 3)%nat -> (j < 3)%nat -> mmul (mmul c a) (mmul b d) i j = delta3 i j.
Proof.
  intros H c d K i j Hi Hj. rewrite <- (K i j Hi Hj).
  transitivity (mmul c (mmul (mmul a b) d) i j); [unfold mmul; ring|].
  unfold mmul at 1 2. rewrite !H by lia. unfold mmul, delta3. cbn. ring.
Qed.
Lemma orth_mmul a b : orthogonal a -> orthogonal b -> orthogonal (mmul a b).
Proof.
  intros A B i j Hi Hj. split.
  - transitivity (mmul (mmul (transpose b) (transpose a)) (mmul a b) i j); [unfold mmul, transpose; ring|].
    apply mmul_orth; auto; intros k l Hk Hl; [apply A|apply B]; auto.
  - transitivity (mmul (mmul a b) (mmul (transpose b) (transpose a)) i j); [unfold mmul, transpose; ring|].
    apply mmul_orth; auto; intros k l Hk Hl; [apply B|apply A]; auto.
Qed.
Lemma rotation_product a b : proper_rotation a -> proper_rotation b -> proper_rotation (product a b).
Proof.
  intros (LA & OA & DA) (LB & OB & DB). destruct (product_linear a b LA LB) as [L E]. split; [exact L|split].
  - intros i j Hi Hj. destruct (orth_mmul a b OA OB i j Hi Hj) as [O1 O2]. 
    unfold mmul at 1, transpose in O1. unfold mmul at 1, transpose in O2. unfold mmul at 1 2, transpose. rewrite !E by lia.
    split; assumption.
  - transitivity (det3 a * det3 b); [|rewrite DA, DB; ring]. unfold det3. rewrite !E by lia. unfold mmul. ring.
Qed.
Lemma sc1 t : sin t * sin t = 1 - cos t * cos t.
Proof. pose proof (sin2_cos2 t) as H. unfold Rsqr in H. lra. Qed.
Lemma about_rotation a t : (a < 3)%nat -> proper_rotation (about a t).
Proof.
  intros Ha. split; [split; [split|]|split].
  - intros k Hk. c3 a; c3 k; reflexivity.
  - c3 a; reflexivity.
  - intros k Hk. c3 a; c3 k; reflexivity.
  - intros i j Hi Hj. pose proof (sc1 t). c3 a; c3 i; c3 j; unfold mmul, transpose, delta3; cbn; split; nra.
  - pose proof (sc1 t). c3 a; unfold det3; cbn; nra.
Qed.
Lemma denoted_rotation c a1 a2 a3 : proper_rotation (denoted c a1 a2 a3).
Proof.
  assert (H : forall a t, proper_rotation (about (axis_no a) t)) by (intros [] t; apply about_rotation; cbn; lia).
  unfold denoted. destruct (rotating c); repeat apply rotation_product; apply H.
Qed.

(** ** Euler matrices *)
Definition code_of (c : convention) : code := match decode (Name (conv_name c)) with Ok k => k | Raise _ => Code 0 false false false end.
Lemma decode_legal c : legal c -> decode (Name (conv_name c)) = Ok (code_of c) /\ decode_lower (Name (conv_name c)) = Ok (code_of c).
Proof. intros [H1 H2]. destruct c as [[] [] [] []]; cbn in H1, H2; try congruence; split; reflexivity. Qed.
Lemma euler_denoted c a1 a2 a3 : legal c -> same4 (euler_coded a1 a2 a3 (code_of c)) (denoted c a1 a2 a3).
Proof.
  intros [H1 H2] i j Hi Hj. destruct c as [[] [] [] []]; cbn in H1, H2; try congruence; clear H1 H2;
    (match goal with |- euler_coded _ _ _ ?c i j = _ => let k := eval vm_compute in c in change c with k end);
    c4 i; c4 j; unfold euler_coded, denoted, product; cbn; rewrite ?sin_neg, ?cos_neg; ring.
Qed.
Lemma euler_ok c a1 a2 a3 : legal c -> exists M, euler_matrix a1 a2 a3 (Name (conv_name c)) = Ok M /\ same4 M (denoted c a1 a2 a3) /\ proper_rotation M.
Proof.
  intros H. exists (euler_coded a1 a2 a3 (code_of c)). unfold euler_matrix. rewrite (proj1 (decode_legal c H)). split; [reflexivity|].
  pose proof (euler_denoted c a1 a2 a3 H) as E. split; [exact E|].
  eapply same4_rotation; [apply same4_sym, E|apply denoted_rotation].
Qed.
Lemma lookup_some s c : lookup s = Some c -> In (s, c) axes2tuple.
Proof.
  unfold lookup. destruct (find _ axes2tuple) as [[k v]|] eqn:F; [|discriminate]. intros H. injection H as <-.
  apply find_some in F as [F1 F2]. apply String.eqb_eq in F2. cbn in F2. now subst.
Qed.
Lemma lookup_only s k : lookup s = Some k -> exists c, legal c /\ s = conv_name c /\ k = code_of c.
Proof.
  intros H. apply lookup_some in H. unfold axes2tuple in H.
  repeat (destruct H as [H|H]; [injection H as <- <-;
    first [ solve [exists (Conv false AX AY AZ); split; [split; discriminate|split; reflexivity]]
          | solve [exists (Conv false AX AY AX); split; [split; discriminate|split; reflexivity]]
          | solve [exists (Conv false AX AZ AY); split; [split; discriminate|split; reflexivity]]
          | solve [exists (Conv false AX AZ AX); split; [split; discriminate|split; reflexivity]]
          | solve [exists (Conv false AY AZ AX); split; [split; discriminate|split; reflexivity]]
          | solve [exists (Conv false AY AZ AY); split; [split; discriminate|split; reflexivity]]
          | solve [exists (Conv false AY AX AZ); split; [split; discriminate|split; reflexivity]]
          | solve [exists (Conv false AY AX AY); split; [split; discriminate|split; reflexivity]]
          | solve [exists (Conv false AZ AX AY); split; [split; discriminate|split; reflexivity]]
          | solve [exists (Conv false AZ AX AZ); split; [split; discriminate|split; reflexivity]]
          | solve [exists (Conv false AZ AY AX); split; [split; discriminate|split; reflexivity]]
          | solve [exists (Conv false AZ AY AZ); split; [split; discriminate|split; reflexivity]]
          | solve [exists (Conv true AX AY AZ); split; [split; discriminate|split; reflexivity]]
          | solve [exists (Conv true AX AY AX); split; [split; discriminate|split; reflexivity]]
          | solve [exists (Conv true AX AZ AY); split; [split; discriminate|split; reflexivity]]
          | solve [exists (Conv true AX AZ AX); split; [split; discriminate|split; reflexivity]]
          | solve [exists (Conv true AY AZ AX); split; [split; discriminate|split; reflexivity]]
          | solve [exists (Conv true AY AZ AY); split; [split; discriminate|split; reflexivity]]
          | solve [exists (Conv true AY AX AZ); split; [split; discriminate|split; reflexivity]]
          | solve [exists (Conv true AY AX AY); split; [split; discriminate|split; reflexivity]]
          | solve [exists (Conv true AZ AX AY); split; [split; discriminate|split; reflexivity]]
          | solve [exists (Conv true AZ AX AZ); split; [split; discriminate|split; reflexivity]]
          | solve [exists (Conv true AZ AY AX); split; [split; discriminate|split; reflexivity]]
          | solve [exists (Conv true AZ AY AZ); split; [split; discriminate|split; reflexivity]] ]|]).
  destruct H.
Qed.
Lemma euler_rejects s a1 a2 a3 : (forall c, legal c -> s <> conv_name c) -> euler_matrix a1 a2 a3 (Name s) = Raise KeyError.
Proof.
  intros H. unfold euler_matrix, decode. destruct (lookup s) as [k|] eqn:L; [|reflexivity].
  destruct (lookup_only s k L) as (c & Hc & -> & _). now destruct (H c Hc).
Qed.
Lemma tuple_is_name k : valid_tuple k = true -> exists c, legal c /\ k = code_of c.
Proof.
  intros H. unfold valid_tuple in H. apply existsb_exists in H as ([s k'] & Hin & E). cbn in E.
  assert (Ek : k' = k).
  { destruct k', k. unfold code_eqb in E. cbn in E. apply andb_prop in E as [E E4]. apply andb_prop in E as [E E3]. apply andb_prop in E as [E1 E2].
    apply Nat.eqb_eq in E1. apply eqb_prop in E2, E3, E4. now subst. }
  subst k'. assert (L : lookup s = Some k).
  { unfold axes2tuple in Hin. repeat (destruct Hin as [Hin|Hin]; [injection Hin as <- <-; reflexivity|]). destruct Hin. }
  destruct (lookup_only s k L) as (c & Hc & _ & Ec). eauto.
Qed.
