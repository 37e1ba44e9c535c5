From Coq Require Import Lra Lia.
From Verif Require Import Base SpecTensor ModelTrans SpecTrans ModelDecomp ProofTrans ModelCExt SpecCExt.
Open Scope R_scope.
Notation length := List.length.

Lemma conv3_ok : forall a, numbers 3 a -> conv3 a = Ret (entries a).
Proof. intros a (l & -> & L). unfold conv3, conv4. apply Nat.leb_le in L. rewrite L. reflexivity. Qed.
Lemma conv4_ok : forall a, numbers 4 a -> conv4 a = Ret (entries a).
Proof. intros a (l & -> & L). unfold conv3, conv4. apply Nat.leb_le in L. rewrite L. reflexivity. Qed.
Lemma conv44_ok : forall a, square4 a -> conv44 a = Ret (elements a).
Proof. intros a (m & ->). reflexivity. Qed.
Lemma conv3n_ok : forall a, no_or (numbers 3) a -> conv3_or_none a = Ret (option_map entries a).
Proof. intros [a|] H; cbn; [|reflexivity]. rewrite (conv3_ok a H). reflexivity. Qed.
Lemma conv3_no : forall a, ~ numbers 3 a -> conv3 a = Exc ValueError.
Proof.
  intros [l|r c m|] H; unfold conv3, conv4; try reflexivity.
  destruct (Nat.leb_spec 3 (length l)) as [E|E]; [exfalso; apply H; exists l; split; auto | reflexivity].
Qed.
Lemma conv4_no : forall a, ~ numbers 4 a -> conv4 a = Exc ValueError.
Proof.
  intros [l|r c m|] H; unfold conv3, conv4; try reflexivity.
  destruct (Nat.leb_spec 4 (length l)) as [E|E]; [exfalso; apply H; exists l; split; auto | reflexivity].
Qed.
Lemma conv44_no : forall a, ~ square4 a -> conv44 a = Exc ValueError.
Proof.
  intros [l|r c m|] H; unfold conv44; try reflexivity.
  destruct (Nat.eqb_spec r 4); destruct (Nat.eqb_spec c 4); cbn; try reflexivity.
  subst. exfalso. apply H. exists m. reflexivity.
Qed.

Ltac each4 := intros i j Hi Hj;
  destruct i as [|[|[|[|i]]]]; try lia; destruct j as [|[|[|[|j]]]]; try lia.
Ltac each n := let k := fresh "k" in let H := fresh "H" in intros k H;
  destruct k as [|[|[|[|k]]]]; try lia.

Lemma c_identity : gives4 c_identity_matrix identity4.
Proof. eexists. split; [reflexivity|]. each4; reflexivity. Qed.
Lemma c_translation : forall d, numbers 3 d -> gives4 (c_translation_matrix d) (translation_matrix (entries d)).
Proof.
  intros d H. unfold c_translation_matrix. rewrite (conv3_ok d H). eexists. split; [reflexivity|].
  each4; reflexivity.
Qed.

Lemma sq_norm3 : forall v, sqrt (v 0%nat * v 0%nat + v 1%nat * v 1%nat + v 2%nat * v 2%nat) = norm3 v.
Proof. reflexivity. Qed.
Lemma unit3_k : forall v k, v k / norm3 v = unit3 v k.
Proof. reflexivity. Qed.

Ltac toorder v := rewrite !(sq_norm3 v), ?(unit3_k v).
Ltac opened := cbv [set33 setcol setrow mset identity4 outer vminus arr16 rows4 vec4 Nat.eqb Nat.ltb Nat.leb andb dot3].

Lemma c_reflection : forall p n, numbers 3 p -> numbers 3 n -> eps <= norm3 (entries n) ->
  gives4 (c_reflection_matrix p n) (reflection_matrix (entries p) (entries n)).
Proof.
  intros p n P N E. unfold c_reflection_matrix. rewrite (conv3_ok p P), (conv3_ok n N). cbn [obind].
  set (v := entries n) in *. cbv zeta. rewrite (sq_norm3 v), !unit3_k.
  destruct (Rlt_dec (norm3 v) eps) as [L|L]; [lra|]. eexists. split; [reflexivity|].
  unfold reflection_matrix. each4; opened; ring.
Qed.
Lemma c_rotation : forall a d p, numbers 3 d -> no_or (numbers 3) p -> eps <= norm3 (entries d) ->
  gives4 (c_rotation_matrix a d p) (rotation_matrix a (entries d) (option_map entries p)).
Proof.
  intros a d p D P E. unfold c_rotation_matrix. rewrite (conv3_ok d D), (conv3n_ok p P). cbn [obind].
  set (v := entries d) in *. cbv zeta. rewrite (sq_norm3 v), !unit3_k.
  destruct (Rlt_dec (norm3 v) eps) as [L|L]; [lra|].
  unfold rotation_matrix. destruct p as [p|]; cbn [option_map].
  - set (w := entries p). eexists. split; [reflexivity|]. each4; opened; ring.
  - eexists. split; [reflexivity|]. each4; opened; ring.
Qed.
Lemma iszero_no : forall x, eps <= Rabs x -> iszero x = false.
Proof.
  intros x H. unfold iszero. destruct (Rlt_dec x eps) as [A|A]; [|reflexivity].
  destruct (Rlt_dec (- eps) x) as [B|B]; [|reflexivity].
  exfalso. unfold Rabs in H. destruct (Rcase_abs x); lra.
Qed.
Lemma iszero_yes : forall x, Rabs x < eps -> iszero x = true.
Proof.
  intros x H. unfold iszero. destruct (Rlt_dec x eps) as [A|A]; [destruct (Rlt_dec (- eps) x) as [B|B]; [reflexivity|]|];
  exfalso; unfold Rabs in H; destruct (Rcase_abs x); lra.
Qed.
Lemma c_projection : forall p n d e ps, numbers 3 p -> numbers 3 n -> no_or (numbers 3) d -> no_or (numbers 3) e ->
  eps <= norm3 (entries n) ->
  (e = None -> forall d', d = Some d' -> eps <= Rabs (inner 3 (entries d') (unit3 (entries n)))) ->
  gives4 (c_projection_matrix p n d e ps)
         (projection_matrix (entries p) (entries n) (option_map entries d) (option_map entries e) ps).
Proof.
  intros p n d e ps P N D E L X. unfold c_projection_matrix.
  rewrite (conv3_ok p P), (conv3_ok n N), (conv3n_ok d D), (conv3n_ok e E). cbn [obind].
  set (v := entries n) in *. cbv zeta. rewrite (sq_norm3 v), !unit3_k.
  destruct (Rlt_dec (norm3 v) eps) as [L1|L1]; [lra|].
  set (w := entries p). unfold projection_matrix.
  destruct e as [e|]; cbn [option_map].
  - set (u := entries e). destruct ps; (eexists; split; [reflexivity|]); each4; opened; ring.
  - destruct d as [d|]; cbn [option_map].
    + specialize (X eq_refl d eq_refl). rewrite inner3_dot in X. set (u := entries d) in *.
      change (u 0%nat * unit3 v 0%nat + u 1%nat * unit3 v 1%nat + u 2%nat * unit3 v 2%nat) with (dot3 u (unit3 v)).
      rewrite (iszero_no _ X). eexists. split; [reflexivity|].
      assert (Z : dot3 u (unit3 v) <> 0). { intro Z. rewrite Z, Rabs_R0 in X. generalize eps_pos. lra. }
      set (s := dot3 u (unit3 v)) in *.
      each4; cbv [set33 setcol setrow mset identity4 outer vminus arr16 rows4 vec4 Nat.eqb Nat.ltb Nat.leb andb];
      unfold dot3; fold s; try field; try exact Z; try ring.
    + eexists. split; [reflexivity|]. each4; opened; ring.
Qed.
Lemma c_clip : forall l r b t n f ps, n <> eps ->
  match clip_matrix l r b t n f ps with
  | Ok m => gives4 (c_clip_matrix l r b t n f ps) m
  | Raise e => c_clip_matrix l r b t n f ps = Exc e
  end.
Proof.
  intros l r b t n f ps E. unfold clip_matrix, c_clip_matrix.
  destruct (Rle_dec r l); [reflexivity|]. destruct (Rle_dec t b); [reflexivity|]. destruct (Rle_dec f n); [reflexivity|].
  destruct ps.
  - destruct (Rle_dec n eps), (Rlt_dec n eps); try lra; try reflexivity. eexists. split; [reflexivity|]. each4; reflexivity.
  - eexists. split; [reflexivity|]. each4; reflexivity.
Qed.
Lemma c_shear : forall a d p n, numbers 3 d -> numbers 3 p -> numbers 3 n ->
  eps <= norm3 (entries d) -> eps <= norm3 (entries n) ->
  match shear_matrix a (entries d) (entries p) (entries n) with
  | Ok m => gives4 (c_shear_matrix a d p n) m
  | Raise e => c_shear_matrix a d p n = Exc e
  end.
Proof.
  intros a d p n D P N L M. unfold c_shear_matrix, shear_matrix.
  rewrite (conv3_ok d D), (conv3_ok p P), (conv3_ok n N). cbn [obind].
  set (v := entries d) in *. set (w := entries n) in *. cbv zeta. rewrite (sq_norm3 v), (sq_norm3 w), !unit3_k.
  destruct (Rlt_dec (norm3 v) eps) as [L1|L1]; [lra|]. destruct (Rlt_dec (norm3 w) eps) as [L2|L2]; [lra|].
  change (unit3 w 0%nat * unit3 v 0%nat + unit3 w 1%nat * unit3 v 1%nat + unit3 w 2%nat * unit3 v 2%nat) with (dot3 (unit3 w) (unit3 v)).
  destruct (Rlt_dec (/ 10 ^ 6) (Rabs (dot3 (unit3 w) (unit3 v)))); [reflexivity|].
  eexists. split; [reflexivity|]. set (u := entries p). each4; opened; ring.
Qed.
Lemma c_orthogonalization : forall l g, numbers 3 l -> numbers 3 g ->
  let a := radians (entries g 0%nat) in let b := radians (entries g 1%nat) in let c := radians (entries g 2%nat) in
  eps <= Rabs (sin a * sin b) -> eps <= Rabs (cos a * cos b - cos c - sin a * sin b) ->
  match orthogonalization_matrix (entries l) (entries g) with
  | Ok m => exists m', c_orthogonalization_matrix l g = Ret (Some m') /\ same4 m' m
  | Raise _ => c_orthogonalization_matrix l g = Ret None
  end.
Proof.
  intros l g L G a b c A B. unfold c_orthogonalization_matrix, orthogonalization_matrix.
  rewrite (conv3_ok l L), (conv3_ok g G). cbn [obind]. cbv zeta.
  assert (Rd : forall k, entries g k * (PI / 180) = radians (entries g k)) by (intro; unfold radians; field).
  rewrite !Rd. fold a b c.
  destruct (Rlt_dec (Rabs (sin a * sin b)) eps) as [X|X]; [lra|].
  destruct (Rlt_dec (Rabs (cos a * cos b - cos c - sin a * sin b)) eps) as [Y|Y]; [lra|].
  destruct (Rlt_dec (1 - (cos a * cos b - cos c) / (sin a * sin b) * ((cos a * cos b - cos c) / (sin a * sin b))) 0); [reflexivity|].
  eexists. split; [reflexivity|]. each4; reflexivity.
Qed.
