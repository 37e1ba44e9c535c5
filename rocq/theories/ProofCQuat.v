From Coq Require Import Lra Lia.
From Verif Require Import Base SpecTensor ModelTrans SpecTrans ModelDecomp ProofTrans ProofRigid ProofQuat ProofEuler ModelCExt SpecCExt ProofCExt.
Open Scope R_scope.
Notation length := List.length.

(** ** scale_matrix *)
Lemma c_scale : forall f o d, no_or (numbers 3) o -> no_or (numbers 3) d ->
  (forall d', d = Some d' -> inner 3 (entries d') (entries d') = 1) ->
  gives4 (c_scale_matrix f o d) (scale_matrix f (option_map entries o) (option_map entries d)).
Proof.
  intros f o d O D U. unfold c_scale_matrix. rewrite (conv3n_ok o O), (conv3n_ok d D). cbn [obind].
  destruct d as [d|]; cbn [option_map].
  - specialize (U d eq_refl). rewrite inner3_dot in U.
    assert (V : forall k, unit3 (entries d) k = entries d k) by (intro k; unfold unit3; rewrite U, sqrt_1; field).
    set (v := entries d) in *. cbv zeta. unfold scale_matrix.
    destruct o as [o|]; cbn [option_map]; (eexists; split; [reflexivity|]); each4; opened; rewrite ?V; ring.
  - unfold scale_matrix. destruct o as [o|]; cbn [option_map]; (eexists; split; [reflexivity|]); each4; opened; ring.
Qed.
Lemma c_scale_refuted : exists f d, numbers 3 d /\
  exists m, c_scale_matrix f None (Some d) = Ret m /\ m 2%nat 2%nat = 5 /\ scale_matrix f None (Some (entries d)) 2%nat 2%nat = 2.
Proof.
  exists 2, (Vec [0; 0; 2]). split; [exists [0; 0; 2]; split; [reflexivity|cbn; lia]|].
  eexists. split; [reflexivity|]. split; [cbv [c_scale_matrix entries of_list nth arr16 rows4 vec4]; ring|].
  unfold scale_matrix, set33, identity4, outer, unit3, dot3. cbn -[sqrt].
  replace (0 * 0 + 0 * 0 + 2 * 2) with (2 * 2) by ring. rewrite sqrt_square by lra. field.
Qed.

(** ** Euler angles *)
Lemma axis_legal : forall le c, legal c -> axis2tuple le (CName (conv_name c)) = Ret (code_of c).
Proof. intros le c [H1 H2]. destruct c as [[] [] [] []]; cbn in H1, H2; try congruence; destruct le; vm_compute; reflexivity. Qed.
Lemma reversed_legal : forall le c, legal c ->
  axis2tuple le (CName (backwards (conv_name c))) = Ret (code_of c).
Proof. intros le c [H1 H2]. destruct c as [[] [] [] []]; cbn in H1, H2; try congruence; destruct le; vm_compute; reflexivity. Qed.
Lemma c_coded : forall m0 a1 a2 a3 c, legal c -> same4 (c_euler_coded m0 a1 a2 a3 (code_of c)) (euler_coded a1 a2 a3 (code_of c)).
Proof.
  intros m0 a1 a2 a3 c [H1 H2] i j Hi Hj. destruct c as [[] [] [] []]; cbn in H1, H2; try congruence; clear H1 H2;
    (match goal with |- c_euler_coded _ _ _ _ ?c i j = _ => let k := eval vm_compute in c in change c with k end);
    destruct i as [|[|[|[|i]]]]; try lia; destruct j as [|[|[|[|j]]]]; try lia; reflexivity.
Qed.
Lemma c_euler : forall le m0 c a1 a2 a3, legal c -> gives4 (c_euler_matrix le m0 a1 a2 a3 (CName (conv_name c))) (denoted c a1 a2 a3).
Proof.
  intros le m0 c a1 a2 a3 L. unfold c_euler_matrix. rewrite (axis_legal le c L). cbn [obind]. eexists. split; [reflexivity|].
  eapply same4_trans; [apply c_coded, L | apply euler_denoted, L].
Qed.
Lemma c_euler_angles : forall le c m, legal c ->
  match euler_from_matrix m (Name (conv_name c)) with
  | Ok t => c_euler_from_matrix le (Mat 4 4 m) (CName (conv_name c)) = Ret t
  | Raise _ => False
  end.
Proof.
  intros le c m L. unfold euler_from_matrix, c_euler_from_matrix. rewrite (proj2 (decode_legal c L)), (axis_legal le c L). cbn [bind obind conv44 Nat.eqb andb].
  reflexivity.
Qed.
Lemma c_euler_quat : forall le q0 c a1 a2 a3, legal c ->
  match quaternion_from_euler a1 a2 a3 (Name (conv_name c)) with
  | Ok q => givesv 4 (c_quaternion_from_euler le q0 a1 a2 a3 (CName (conv_name c))) q
  | Raise _ => False
  end.
Proof.
  intros le q0 c a1 a2 a3 L. unfold quaternion_from_euler, c_quaternion_from_euler.
  rewrite (proj2 (decode_legal c L)), (axis_legal le c L). cbn [bind obind].
  destruct L as [H1 H2]. destruct c as [[] [] [] []]; cbn in H1, H2; try congruence; clear H1 H2;
    (match goal with |- context [code_of ?c] => let k := eval vm_compute in (code_of c) in change (code_of c) with k end);
    (eexists; split; [reflexivity|]; intros k Hk; destruct k as [|[|[|[|k]]]]; try lia; reflexivity).
Qed.
Lemma c_default : forall le, axis2tuple le CNone = axis2tuple le (CName "sxyz"%string).
Proof. intros []; reflexivity. Qed.
Lemma c_tuple : forall le f p r m, (0 <= f <= 2)%Z ->
  axis2tuple le (CTuple [f; one_or_zero p; one_or_zero r; one_or_zero m]) = Ret (Code (Z.to_nat f) p r m) /\ valid_tuple (Code (Z.to_nat f) p r m) = true.
Proof.
  intros le f p r m F. assert (f = 0 \/ f = 1 \/ f = 2)%Z as [-> | [-> | ->]] by lia; destruct p, r, m; split; reflexivity.
Qed.
Lemma one_or_zero_eqb : forall z, ((z =? 0) || (z =? 1))%Z%bool = true -> z = one_or_zero (z =? 1)%Z.
Proof. intros z H. apply orb_prop in H as [H|H]; apply Z.eqb_eq in H; subst; reflexivity. Qed.
Lemma c_tuple_only : forall le l k, axis2tuple le (CTuple l) = Ret k ->
  exists f p r m, l = [f; one_or_zero p; one_or_zero r; one_or_zero m] /\ (0 <= f <= 2)%Z /\ k = Code (Z.to_nat f) p r m.
Proof.
  intros le l k H. destruct l as [|f [|p [|r [|m [|x l]]]]]; try discriminate. cbn [axis2tuple] in H.
  match type of H with (if ?b then _ else _) = _ => destruct b eqn:E end; [|discriminate]. injection H as <-.
  apply andb_prop in E as [E E4]. apply andb_prop in E as [E E3]. apply andb_prop in E as [E1 E2].
  exists f, (p =? 1)%Z, (r =? 1)%Z, (m =? 1)%Z.
  rewrite <- !one_or_zero_eqb by assumption. split; [reflexivity|]. split; [|reflexivity].
  apply orb_prop in E1 as [E1|E1]; [apply orb_prop in E1 as [E1|E1]|]; apply Z.eqb_eq in E1; lia.
Qed.

(** the names: the bytes can be read off the number *)
Lemma char_code_range : forall c, (0 <= char_code c < 256)%Z.
Proof.
  intro c. unfold char_code. pose proof (Ascii.N_ascii_bounded c). lia.
Qed.
Lemma char_code_inj : forall c n, char_code c = Z.of_N n -> c = Ascii.ascii_of_N n.
Proof. intros c n H. unfold char_code in H. apply N2Z.inj in H. rewrite <- H. symmetry. apply Ascii.ascii_N_embedding. Qed.
Lemma digits : forall a b c d a' b' c' d', (0 <= a < 256)%Z -> (0 <= b < 256)%Z -> (0 <= c < 256)%Z -> (0 <= d < 256)%Z ->
  (0 <= a' < 256)%Z -> (0 <= b' < 256)%Z -> (0 <= c' < 256)%Z -> (0 <= d' < 256)%Z ->
  (a + 256 * b + 65536 * c + 16777216 * d = a' + 256 * b' + 65536 * c' + 16777216 * d')%Z -> a = a' /\ b = b' /\ c = c' /\ d = d'.
Proof. intros. lia. Qed.
Lemma char_inj : forall c c', char_code c = char_code c' -> c = c'.
Proof. intros c c' H. unfold char_code in H. apply N2Z.inj in H. rewrite <- (Ascii.ascii_N_embedding c), H. apply Ascii.ascii_N_embedding. Qed.
Lemma hash_inj : forall a b c d a' b' c' d', hash true a b c d = hash true a' b' c' d' -> a = a' /\ b = b' /\ c = c' /\ d = d'.
Proof.
  intros a b c d a' b' c' d' H. unfold hash in H.
  apply digits in H; try apply char_code_range. destruct H as (A & B & C & D). repeat split; apply char_inj; assumption.
Qed.
Lemma hash_swap : forall a b c d, hash false a b c d = hash true d c b a.
Proof. reflexivity. Qed.
Lemma switch_rows : forall x y k, In (x, y, k) switch -> exists c a b d e, legal c /\ k = code_of c /\
  conv_name c = String a (String b (String d (String e EmptyString))) /\ x = hash true a b d e /\ y = hash true e d b a.
Proof.
  intros x y k H. unfold switch in H.
  repeat (destruct H as [H|H]; [injection H as <- <- <-;
    let go c := (exists c; do 4 eexists; split; [split; discriminate|]; split; [reflexivity|]; split; [reflexivity|]; split; reflexivity) in
    first [ solve [go (Conv false AX AY AZ)] | solve [go (Conv false AX AY AX)] | solve [go (Conv false AX AZ AY)] | solve [go (Conv false AX AZ AX)]
          | solve [go (Conv false AY AZ AX)] | solve [go (Conv false AY AZ AY)] | solve [go (Conv false AY AX AZ)] | solve [go (Conv false AY AX AY)]
          | solve [go (Conv false AZ AX AY)] | solve [go (Conv false AZ AX AZ)] | solve [go (Conv false AZ AY AX)] | solve [go (Conv false AZ AY AZ)]
          | solve [go (Conv true AX AY AZ)] | solve [go (Conv true AX AY AX)] | solve [go (Conv true AX AZ AY)] | solve [go (Conv true AX AZ AX)]
          | solve [go (Conv true AY AZ AX)] | solve [go (Conv true AY AZ AY)] | solve [go (Conv true AY AX AZ)] | solve [go (Conv true AY AX AY)]
          | solve [go (Conv true AZ AX AY)] | solve [go (Conv true AZ AX AZ)] | solve [go (Conv true AZ AY AX)] | solve [go (Conv true AZ AY AZ)] ]|]).
  destruct H.
Qed.
Lemma c_names : forall le s k, axis2tuple le (CName s) = Ret k ->
  exists c, legal c /\ (s = conv_name c \/ backwards s = conv_name c) /\ k = code_of c.
Proof.
  intros le s k H. destruct s as [|a [|b [|c [|d [|e s]]]]]; try discriminate. cbn [axis2tuple] in H.
  match type of H with (if ?b then _ else _) = _ => destruct b end; [|discriminate].
  unfold switch_on in H. destruct (find _ switch) as [[[x y] k']|] eqn:F; [|discriminate]. injection H as <-.
  apply find_some in F as [F E]. cbn [fst snd] in E |- *.
  destruct (switch_rows x y k' F) as (cv & p & q & r & t & L & K & N & X & Y).
  exists cv. split; [exact L|]. split; [|exact K]. rewrite N. unfold backwards. cbn.
  apply orb_prop in E as [E|E]; apply Z.eqb_eq in E; [rewrite X in E | rewrite Y in E];
  (destruct le; [|rewrite hash_swap in E]; apply hash_inj in E as (-> & -> & -> & ->)); auto.
Qed.
Lemma char_nat : forall c, (Ascii.nat_of_ascii c < 128)%nat -> (char_code c <? 128)%Z = true.
Proof. intros c H. unfold char_code. rewrite <- N_nat_Z. apply Z.ltb_lt. unfold Ascii.nat_of_ascii in H. lia. Qed.
Lemma c_other_names : forall le s, ascii_only s -> (forall c, legal c -> s <> conv_name c /\ backwards s <> conv_name c) ->
  axis2tuple le (CName s) = Exc ValueError.
Proof.
  intros le s A H. destruct (axis2tuple le (CName s)) as [k|e|] eqn:E.
  - destruct (c_names le s k E) as (c & L & [X|X] & _); destruct (H c L) as [H1 H2]; contradiction.
  - destruct s as [|a [|b [|c [|d [|? s]]]]]; cbn [axis2tuple] in E; try (now injection E as <-).
    match type of E with (if ?b then _ else _) = _ => destruct b end; [|discriminate].
    destruct (switch_on _); [discriminate|now injection E as <-].
  - destruct s as [|a [|b [|c [|d [|? s]]]]]; cbn [axis2tuple] in E; try discriminate.
    unfold ascii_only in A. cbn in A. inversion A as [|? ? A1 A']; inversion A' as [|? ? A2 A'']; inversion A'' as [|? ? A3 A3']; inversion A3' as [|? ? A4 _]; subst.
    rewrite !char_nat in E by assumption. cbn [andb] in E. destruct (switch_on _); discriminate.
Qed.

(** ** Quaternions *)
Lemma c_mul : forall p q, numbers 4 p -> numbers 4 q ->
  givesv 4 (c_quaternion_multiply p q) (quaternion_multiply (entries p) (entries q)).
Proof.
  intros p q P Q. unfold c_quaternion_multiply. rewrite (conv4_ok p P), (conv4_ok q Q). eexists. split; [reflexivity|]. each 4; reflexivity.
Qed.
Lemma c_conj : forall q, numbers 4 q -> givesv 4 (c_quaternion_conjugate q) (quaternion_conjugate (entries q)).
Proof. intros q Q. unfold c_quaternion_conjugate. rewrite (conv4_ok q Q). eexists. split; [reflexivity|]. each 4; reflexivity. Qed.
Lemma c_inverse : forall q, numbers 4 q ->
  (eps <= inner 4 (entries q) (entries q) -> givesv 4 (c_quaternion_inverse q) (quaternion_inverse (entries q))) /\
  (inner 4 (entries q) (entries q) < eps -> c_quaternion_inverse q = Exc ValueError).
Proof.
  intros q Q. unfold c_quaternion_inverse. rewrite (conv4_ok q Q), inner4_dot. cbn [obind]. set (v := entries q).
  change (v 0%nat * v 0%nat + v 1%nat * v 1%nat + v 2%nat * v 2%nat + v 3%nat * v 3%nat) with (dot4 v v).
  cbv zeta. destruct (Rlt_dec (dot4 v v) eps) as [L|L]; split; intro E; try lra; try reflexivity.
  eexists. split; [reflexivity|]. unfold quaternion_inverse. cbv zeta.
  assert (N : dot4 (quaternion_conjugate v) (quaternion_conjugate v) = dot4 v v) by (unfold dot4, quaternion_conjugate; cbn; ring).
  rewrite N. each 4; reflexivity.
Qed.
Lemma c_about : forall a x, numbers 3 x -> givesv 4 (c_quaternion_about_axis a x) (quaternion_about_axis a (entries x)).
Proof.
  intros a x X. unfold c_quaternion_about_axis. rewrite (conv3_ok x X). cbn [obind]. set (v := entries x).
  unfold quaternion_about_axis. cbv zeta.
  assert (N : norm4 (vec4 0 (v 0%nat) (v 1%nat) (v 2%nat)) = norm3 v) by (unfold norm4, norm3, dot4, dot3; cbn; f_equal; ring).
  rewrite N, (sq_norm3 v). destruct (Rlt_dec eps (norm3 v)) as [L|L]; (eexists; split; [reflexivity|]); each 4; cbn; try reflexivity; unfold vscale; cbn; ring.
Qed.
Lemma norm4_sq : forall v, sqrt (v 0%nat * v 0%nat + v 1%nat * v 1%nat + v 2%nat * v 2%nat + v 3%nat * v 3%nat) = norm4 v.
Proof. reflexivity. Qed.
Lemma c_qmatrix_long : forall q, eps <= norm4 q -> same4 (fst (c_qmatrix q)) (quaternion_matrix (unit4 q)) /\ vsame 4 (snd (c_qmatrix q)) (unit4 q).
Proof.
  intros q E. unfold c_qmatrix. rewrite norm4_sq. cbv zeta. destruct (Rlt_dec (norm4 q) eps) as [L|L]; [lra|]. cbn [fst snd].
  assert (P : 0 < norm4 q) by (generalize eps_pos; lra).
  assert (Z : inner 4 q q <> 0).
  { rewrite inner4_dot. intro Z. unfold norm4 in P. rewrite Z, sqrt_0 in P. lra. }
  pose proof (unit4_norm q Z) as U. split.
  - intros i j Hi Hj. rewrite (ProofEuler.unit_matrix (unit4 q) U i j Hi Hj).
    assert (X : 1 - (unit4 q 0%nat * unit4 q 0%nat + unit4 q 1%nat * unit4 q 1%nat + unit4 q 2%nat * unit4 q 2%nat + unit4 q 3%nat * unit4 q 3%nat) = 0)
      by (unfold unit_quat, inner in U; cbn [vsum] in U; lra).
    destruct i as [|[|[|[|i]]]]; try lia; destruct j as [|[|[|[|j]]]]; try lia;
    cbv [c_unit_matrix arr16 rows4 vec4 qm Nat.ltb Nat.leb]; change (q 0%nat / norm4 q) with (unit4 q 0%nat); change (q 1%nat / norm4 q) with (unit4 q 1%nat);
    change (q 2%nat / norm4 q) with (unit4 q 2%nat); change (q 3%nat / norm4 q) with (unit4 q 3%nat); try reflexivity; field.
  - each 4; reflexivity.
Qed.
Lemma norm_eps : forall q, eps <= inner 4 q q -> eps <= norm4 q.
Proof.
  intros q E. rewrite inner4_dot in E. unfold norm4. pose proof eps_pos. pose proof eps_lt1.
  replace eps with (sqrt (eps * eps)) by (apply sqrt_square; lra). apply sqrt_le_1_alt.
  apply Rle_trans with eps; [|exact E]. rewrite <- (Rmult_1_r eps) at 3. apply Rmult_le_compat_l; lra.
Qed.
Lemma unit_same : forall q, eps <= inner 4 q q -> same4 (quaternion_matrix (unit4 q)) (quaternion_matrix q).
Proof.
  intros q E. pose proof eps_pos. assert (P : 0 < sqrt (dot4 q q)) by (apply sqrt_lt_R0; rewrite <- inner4_dot; lra).
  assert (S : sqrt (dot4 q q) * sqrt (dot4 q q) = inner 4 q q) by (rewrite inner4_dot; apply sqrt_sqrt; rewrite <- inner4_dot; lra).
  assert (X : (/ sqrt (dot4 q q)) ^ 2 * inner 4 q q = 1) by (rewrite <- S; field; lra).
  pose proof (qmatrix_scale (/ sqrt (dot4 q q)) q E) as Q. rewrite X in Q. pose proof eps_lt1.
  eapply same4_trans; [|apply Q; lra]. intros i j Hi Hj.
  assert (F : forall k, unit4 q k = vscale (/ sqrt (dot4 q q)) q k) by (intro k; unfold unit4, vscale; field; lra).
  unfold quaternion_matrix.
  assert (D : dot4 (unit4 q) (unit4 q) = dot4 (vscale (/ sqrt (dot4 q q)) q) (vscale (/ sqrt (dot4 q q)) q)) by (unfold dot4 at 1 2; rewrite !F; reflexivity).
  rewrite D. destruct (Rlt_dec _ _); [reflexivity|].
  destruct i as [|[|[|[|i]]]]; try lia; destruct j as [|[|[|[|j]]]]; try lia; cbv [rows4 vec4 outer vscale]; unfold vscale in F; rewrite ?F; reflexivity.
Qed.
Lemma c_qmatrix_right : forall sh q, numbers 4 q -> eps <= norm4 (entries q) ->
  exists m q', c_quaternion_matrix sh q = Ret (m, q') /\ same4 m (quaternion_matrix (unit4 (entries q))) /\
    (eps <= inner 4 (entries q) (entries q) -> same4 m (quaternion_matrix (entries q))) /\ (sh = false -> q' = q).
Proof.
  intros sh q Q E. unfold c_quaternion_matrix. rewrite (conv4_ok q Q). cbn [obind].
  destruct (c_qmatrix (entries q)) as [m v] eqn:C. destruct (c_qmatrix_long _ E) as [A _]. rewrite C in A. cbn [fst] in A.
  eexists _, _. split; [reflexivity|]. split; [exact A|]. split.
  - intro L. eapply same4_trans; [exact A | apply unit_same, L].
  - intros ->. destruct q; reflexivity.
Qed.
Lemma tab_nth : forall (f : nat -> R) n k, (k < n)%nat -> nth k (tab n f) 0 = f k.
Proof.
  intros f n k H. unfold tab. rewrite (nth_indep _ 0 (f 0%nat)) by (rewrite map_length, seq_length; exact H).
  rewrite map_nth, seq_nth by exact H. reflexivity.
Qed.
Lemma c_qmatrix_alters : forall l, (4 <= length l)%nat -> eps <= norm4 (entries (Vec l)) ->
  exists m l', c_quaternion_matrix true (Vec l) = Ret (m, Vec l') /\ length l' = length l /\ vsame 4 (entries (Vec l')) (unit4 (entries (Vec l))).
Proof.
  intros l L E. unfold c_quaternion_matrix. rewrite (conv4_ok (Vec l)) by (exists l; auto). cbn [obind].
  destruct (c_qmatrix (entries (Vec l))) as [m v] eqn:C. destruct (c_qmatrix_long _ E) as [_ A]. rewrite C in A. cbn [snd] in A.
  exists m, (tab (length l) v). split; [reflexivity|]. split; [unfold tab; rewrite map_length, seq_length; reflexivity|].
  intros k Hk. rewrite <- A by exact Hk. cbn [entries]. apply tab_nth. lia.
Qed.
Lemma c_backwards : forall le m0 c a1 a2 a3, legal c ->
  gives4 (c_euler_matrix le m0 a1 a2 a3 (CName (backwards (conv_name c)))) (denoted c a1 a2 a3) /\
  euler_matrix a1 a2 a3 (Name (backwards (conv_name c))) = Raise KeyError.
Proof.
  intros le m0 c a1 a2 a3 L. split.
  - unfold c_euler_matrix. rewrite (reversed_legal le c L). cbn [obind]. eexists. split; [reflexivity|].
    eapply same4_trans; [apply c_coded, L | apply euler_denoted, L].
  - destruct L as [H1 H2]. destruct c as [[] [] [] []]; cbn in H1, H2; try congruence; reflexivity.
Qed.
