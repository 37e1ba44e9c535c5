From Coq Require Import Lra.
From Verif Require Import Base SpecTrans SpecDet ProofRegister4.
Open Scope R_scope.

Definition agree (n : nat) (a b : nat -> nat -> R) : Prop := forall i j, (i < n)%nat -> (j < n)%nat -> a i j = b i j.
Definition skip (j b : nat) : nat := if (b <? j)%nat then b else S b.
Definition minor (m : nat -> nat -> R) (j : nat) : nat -> nat -> R := fun a b => m (S a) (skip j b).
Definition row (m : nat -> nat -> R) (i : nat) (r : nat -> R) : nat -> nat -> R := fun a b => if (a =? i)%nat then r b else m a b.
Definition unit_n : nat -> nat -> R := fun i j => if (i =? j)%nat then 1 else 0.
Definition tr (m : nat -> nat -> R) : nat -> nat -> R := fun a b => m b a.

Lemma det_S n m : determinant (S n) m = vsum (S n) (fun j => (-1) ^ j * m 0%nat j * determinant n (minor m j)).
Proof. reflexivity. Qed.
Lemma skip_lt n j b : (b < n)%nat -> (skip j b < S n)%nat.
Proof. unfold skip. destruct (b <? j)%nat; lia. Qed.
Lemma skip_ne j b : skip j b <> j.
Proof. unfold skip. destruct (Nat.ltb_spec b j); lia. Qed.
Lemma det_ext n : forall a b, agree n a b -> determinant n a = determinant n b.
Proof.
  induction n as [|n IH]; intros a b H; [reflexivity|]. rewrite !det_S. apply vsum_ext. intros j Hj.
  rewrite (H 0%nat j) by lia. f_equal. apply IH. intros i k Hi Hk. unfold minor. apply H; [lia|apply skip_lt, Hk].
Qed.
Lemma vsum_0 n f : (forall i, (i < n)%nat -> f i = 0) -> vsum n f = 0.
Proof. intros H. rewrite (vsum_ext n f (fun _ => 0)) by exact H. apply vsum_const0. Qed.
Lemma vsum_shift n f : vsum (S n) f = f 0%nat + vsum n (fun i => f (S i)).
Proof. induction n as [|n IH]; [cbn; ring|]. cbn [vsum] in *. rewrite IH. ring. Qed.
Lemma vsum_one n f k : (k < n)%nat -> (forall i, (i < n)%nat -> i <> k -> f i = 0) -> vsum n f = f k.
Proof.
  induction n as [|n IH]; intros Hk H; [lia|]. cbn [vsum]. destruct (Nat.eq_dec k n) as [->|Ne].
  - rewrite vsum_0; [ring|]. intros i Hi. apply H; lia.
  - rewrite (H n), IH by (lia || (intros; apply H; lia)). ring.
Qed.
Lemma vsum_unit n f k : (k < n)%nat -> vsum n (fun i => f i * unit_n i k) = f k.
Proof.
  intros Hk. rewrite (vsum_one n _ k Hk).
  - unfold unit_n. rewrite Nat.eqb_refl. ring.
  - intros i _ Ne. unfold unit_n. destruct (Nat.eqb_spec i k); [lia|ring].
Qed.

(** ** alternating forms of the rows *)
Record form (n : nat) (F : (nat -> nat -> R) -> R) : Prop := Form {
  f_ext : forall a b, agree n a b -> F a = F b;
  f_lin : forall m i x r s, (i < n)%nat -> F (row m i (fun k => x * r k + s k)) = x * F (row m i r) + F (row m i s);
  f_alt : forall m i, (S i < n)%nat -> (forall k, (k < n)%nat -> m i k = m (S i) k) -> F m = 0 }.

Lemma alt_pairs N (t : nat -> nat -> R) : (forall j k, (j <= k)%nat -> (k < N)%nat -> t j k + t (S k) j = 0) ->
  vsum (S N) (fun j => vsum N (fun k => t j k)) = 0.
Proof.
  intros H.
  set (lo := fun j k => if (j <=? k)%nat then t j k else 0). set (hi := fun j k => if (k <? j)%nat then t j k else 0).
  assert (E : vsum (S N) (fun j => vsum N (fun k => t j k)) =
    vsum (S N) (fun j => vsum N (fun k => lo j k)) + vsum (S N) (fun j => vsum N (fun k => hi j k))).
  { rewrite <- vsum_add. apply vsum_ext. intros j _. rewrite <- vsum_add. apply vsum_ext. intros k _. unfold lo, hi.
    destruct (Nat.leb_spec j k), (Nat.ltb_spec k j); try lia; ring. }
  rewrite E. clear E.
  assert (E1 : vsum (S N) (fun j => vsum N (fun k => lo j k)) = vsum N (fun j => vsum N (fun k => lo j k))).
  { cbn [vsum]. rewrite (vsum_0 N (fun k => lo N k)); [ring|]. intros k Hk. unfold lo. destruct (Nat.leb_spec N k); [lia|reflexivity]. }
  assert (E2 : vsum (S N) (fun j => vsum N (fun k => hi j k)) = vsum N (fun j => vsum N (fun k => hi (S k) j))).
  { rewrite vsum_shift, (vsum_0 N (fun k => hi 0%nat k)) by (intros k _; reflexivity). rewrite Rplus_0_l.
    rewrite vsum_swap. reflexivity. }
  rewrite E1, E2, <- vsum_add. apply vsum_0. intros j Hj. rewrite <- vsum_add. apply vsum_0. intros k Hk. unfold lo, hi.
  destruct (Nat.leb_spec j k), (Nat.ltb_spec j (S k)); try lia; [apply H; lia|ring].
Qed.
Lemma skip_skip j k b : (j <= k)%nat -> skip j (skip k b) = skip (S k) (skip j b).
Proof. intros H. unfold skip. destruct (Nat.ltb_spec b k), (Nat.ltb_spec b j); try lia; repeat (match goal with |- context [(?x <? ?y)%nat] => destruct (Nat.ltb_spec x y); try lia end); reflexivity. Qed.

Lemma det_form n : form n (determinant n).
Proof.
  induction n as [|n IH]; [split; intros; try lia; reflexivity|]. split.
  - apply det_ext.
  - intros m i x r s Hi. rewrite !det_S, <- vsum_scal, <- vsum_add. apply vsum_ext. intros j Hj. destruct i as [|i].
    + unfold row. cbn [Nat.eqb].
      rewrite (det_ext n (minor (fun a b => if (a =? 0)%nat then r b else m a b) j) (minor m j)) by (intros a b _ _; reflexivity).
      rewrite (det_ext n (minor (fun a b => if (a =? 0)%nat then s b else m a b) j) (minor m j)) by (intros a b _ _; reflexivity).
      rewrite (det_ext n (minor (fun a b => if (a =? 0)%nat then x * r b + s b else m a b) j) (minor m j)) by (intros a b _ _; reflexivity).
      ring.
    + assert (E : forall t, determinant n (minor (row m (S i) t) j) = determinant n (row (minor m j) i (fun k => t (skip j k)))).
      { intros t. apply det_ext. intros a b _ _. reflexivity. }
      rewrite !E. rewrite (f_lin n _ IH) by lia. unfold row. cbn [Nat.eqb]. ring.
  - intros m i Hi H. destruct i as [|i].
    + destruct n as [|N]; [lia|]. rewrite det_S.
      set (t := fun j k => (-1) ^ j * m 0%nat j * ((-1) ^ k * m 1%nat (skip j k) * determinant N (fun a b => m (S (S a)) (skip j (skip k b))))).
      rewrite (vsum_ext _ _ (fun j => vsum (S N) (fun k => t j k))).
      2: { intros j Hj. rewrite det_S, <- vsum_scal. reflexivity. }
      apply alt_pairs. intros j k Hjk Hk. unfold t.
      assert (E1 : skip j k = S k) by (unfold skip; destruct (Nat.ltb_spec k j); [lia|reflexivity]).
      assert (E2 : skip (S k) j = j) by (unfold skip; destruct (Nat.ltb_spec j (S k)); [reflexivity|lia]).
      rewrite E1, E2, <- !H by lia.
      rewrite (det_ext N (fun a b => m (S (S a)) (skip (S k) (skip j b))) (fun a b => m (S (S a)) (skip j (skip k b)))).
      * cbn [pow]. ring.
      * intros a b _ _. rewrite (skip_skip j k b Hjk). reflexivity.
    + rewrite det_S. apply vsum_0. intros j Hj. rewrite (f_alt n _ IH (minor m j) i); [ring|lia|].
      intros k Hk. unfold minor. apply H, skip_lt, Hk.
Qed.

Section Form.
Context (n : nat) (F : (nat -> nat -> R) -> R) (HF : form n F).
Lemma f_add m i r s : (i < n)%nat -> F (row m i (fun k => r k + s k)) = F (row m i r) + F (row m i s).
Proof.
  intros Hi. rewrite <- (Rmult_1_l (F (row m i r))). rewrite <- (f_lin n F HF) by exact Hi.
  apply (f_ext n F HF). intros a b _ _. unfold row. destruct (a =? i)%nat; ring.
Qed.
Lemma f_row m i : (i < n)%nat -> F (row m i (m i)) = F m.
Proof. intros Hi. apply (f_ext n F HF). intros a b _ _. unfold row. destruct (Nat.eqb_spec a i); subst; reflexivity. Qed.
Lemma f_zero m i : (i < n)%nat -> F (row m i (fun _ => 0)) = 0.
Proof.
  intros Hi. pose proof (f_add m i (fun _ => 0) (fun _ => 0) Hi) as E.
  assert (G : F (row m i (fun k => 0 + 0)) = F (row m i (fun _ => 0)))
    by (apply (f_ext n F HF); intros a b _ _; unfold row; destruct (a =? i)%nat; ring).
  cbv beta in E. rewrite G in E. lra.
Qed.
Lemma f_scal m i x r : (i < n)%nat -> F (row m i (fun k => x * r k)) = x * F (row m i r).
Proof.
  intros Hi. rewrite <- (Rplus_0_r (x * F (row m i r))), <- (f_zero m i Hi), <- (f_lin n F HF) by exact Hi.
  apply (f_ext n F HF). intros a b _ _. unfold row. destruct (a =? i)%nat; ring.
Qed.
Lemma f_sum m i (c : nat -> R) (r : nat -> nat -> R) N : (i < n)%nat -> F (row m i (fun k => vsum N (fun j => c j * r j k))) = vsum N (fun j => c j * F (row m i (r j))).
Proof.
  intros Hi. induction N as [|N IH]; cbn [vsum]; [apply f_zero, Hi|].
  rewrite <- IH, <- f_scal, <- f_add by exact Hi. reflexivity.
Qed.
(** two rows at once *)
Lemma row_row m i j r s : i <> j -> agree n (row (row m i r) j s) (row (row m j s) i r).
Proof. intros Ne a b _ _. unfold row. destruct (Nat.eqb_spec a i), (Nat.eqb_spec a j); subst; try lia; reflexivity. Qed.
Lemma f_anti m i j r s : (i < n)%nat -> (j < n)%nat -> i <> j -> (forall t, F (row (row m i t) j t) = 0) ->
  F (row (row m i r) j s) = - F (row (row m i s) j r).
Proof.
  intros Hi Hj Ne Z. pose proof (Z (fun k => r k + s k)) as E. rewrite f_add in E by exact Hj.
  rewrite !(f_ext n F HF _ _ (row_row m i j _ _ Ne)), !f_add in E by exact Hi.
  rewrite <- !(f_ext n F HF _ _ (row_row m i j _ _ Ne)), !Z in E. lra.
Qed.
Lemma f_adjacent m i r s : (S i < n)%nat -> F (row (row m i r) (S i) s) = - F (row (row m i s) (S i) r).
Proof.
  intros Hi. apply f_anti; try lia. intros t. apply (f_alt n F HF _ i Hi). intros k _. unfold row.
  rewrite Nat.eqb_refl. destruct (Nat.eqb_spec i (S i)); [lia|]. rewrite Nat.eqb_refl. reflexivity.
Qed.
Lemma f_first m i : (0 < i)%nat -> (i < n)%nat -> (forall k, (k < n)%nat -> m 0%nat k = m i k) -> F m = 0.
Proof.
  revert m. induction i as [|i IH]; intros m H0 Hi H; [lia|]. destruct (Nat.eq_dec i 0) as [->|Ne]; [apply (f_alt n F HF m 0); assumption|].
  rewrite (f_ext n F HF m (row (row m i (m i)) (S i) (m (S i)))).
  2: { intros a b _ _. unfold row. destruct (Nat.eqb_spec a (S i)); [subst; reflexivity|]. destruct (Nat.eqb_spec a i); subst; reflexivity. }
  rewrite f_adjacent by exact Hi. rewrite IH; [ring|lia|lia|]. intros k Hk. unfold row.
  destruct (Nat.eqb_spec 0 (S i)); [lia|]. destruct (Nat.eqb_spec 0 i); [lia|]. destruct (Nat.eqb_spec i (S i)); [lia|]. rewrite Nat.eqb_refl. apply H, Hk.
Qed.
Lemma f_swap m i r s : (0 < i)%nat -> (i < n)%nat -> F (row (row m 0 r) i s) = - F (row (row m 0 s) i r).
Proof.
  intros H0 Hi. apply f_anti; try lia. intros t. apply (f_first _ i); try assumption. intros k _. unfold row.
  rewrite !Nat.eqb_refl. destruct (Nat.eqb_spec 0 i); [lia|]. reflexivity.
Qed.
(** adding multiples of the first row to the others *)
Lemma f_clear1 m i x : (0 < i)%nat -> (i < n)%nat -> F (row m i (fun k => x * m 0%nat k + m i k)) = F m.
Proof.
  intros H0 Hi. rewrite (f_lin n F HF) by exact Hi. rewrite f_row by exact Hi. rewrite (f_first (row m i (m 0%nat)) i); [ring|assumption|assumption|].
  intros k _. unfold row. rewrite Nat.eqb_refl. destruct (Nat.eqb_spec 0 i); [lia|reflexivity].
Qed.
Lemma f_clear m (x : nat -> R) : (0 < n)%nat -> F (fun i k => match i with O => m 0%nat k | S i => x i * m 0%nat k + m (S i) k end) = F m.
Proof.
  intros H0.
  assert (G : forall N, (N < n)%nat -> F (fun i k => match i with O => m 0%nat k | S i => (if (i <? N)%nat then x i else 0) * m 0%nat k + m (S i) k end) = F m).
  { induction N as [|N IH]; intros HN.
    - apply (f_ext n F HF). intros [|a] b _ _; [reflexivity|]. cbn. ring.
    - rewrite <- IH by lia. set (m' := fun i k => match i with O => m 0%nat k | S i => (if (i <? N)%nat then x i else 0) * m 0%nat k + m (S i) k end).
      rewrite <- (f_clear1 m' (S N) (x N)) by lia. apply (f_ext n F HF). intros [|a] b _ _; [reflexivity|].
      unfold row, m'. cbn [Nat.eqb]. destruct (Nat.ltb_spec a (S N)), (Nat.eqb_spec a N), (Nat.ltb_spec a N); subst; try lia; try ring.
      destruct (Nat.ltb_spec N N); [lia|ring]. }
  rewrite <- (G (pred n)) by lia. apply (f_ext n F HF). intros [|a] b Ha _; [reflexivity|].
  destruct (Nat.ltb_spec a (pred n)); [reflexivity|lia].
Qed.
End Form.

(** ** a form is the determinant times its value at the unit matrix *)
Definition embed (j : nat) (B : nat -> nat -> R) : nat -> nat -> R := fun i k =>
  match i with O => unit_n j k | S i => if (k <? j)%nat then B i k else if (k =? j)%nat then 0 else B i (pred k) end.
Lemma embed_form n F j : form (S n) F -> (j < S n)%nat -> form n (fun B => F (embed j B)).
Proof.
  intros HF Hj. split.
  - intros a b H. apply (f_ext _ F HF). intros [|i] k Hi Hk; [reflexivity|]. cbn [embed].
    destruct (Nat.ltb_spec k j); [apply H; lia|]. destruct (Nat.eqb_spec k j); [reflexivity|apply H; lia].
  - intros m i x r s Hi.
    set (e := fun (t : nat -> R) k => if (k <? j)%nat then t k else if (k =? j)%nat then 0 else t (pred k)).
    assert (E : forall t, F (embed j (row m i t)) = F (row (embed j m) (S i) (e t))).
    { intros t. apply (f_ext _ F HF). intros [|a] k Ha Hk; [reflexivity|]. unfold row, e. cbn [embed Nat.eqb]. destruct (a =? i)%nat; reflexivity. }
    rewrite !E. rewrite <- (f_lin _ F HF) by lia. apply (f_ext _ F HF). intros a k _ _. unfold row, e.
    destruct (a =? S i)%nat; [|reflexivity]. destruct (k <? j)%nat; [reflexivity|]. destruct (k =? j)%nat; [ring|reflexivity].
  - intros m i Hi H. apply (f_alt _ F HF _ (S i)); [lia|]. intros k Hk. cbn [embed].
    destruct (Nat.ltb_spec k j); [apply H; lia|]. destruct (Nat.eqb_spec k j); [reflexivity|apply H; lia].
Qed.
Local Ltac cases := repeat (match goal with
  | |- context [(?x <? ?y)%nat] => destruct (Nat.ltb_spec x y); try lia
  | |- context [(?x =? ?y)%nat] => destruct (Nat.eqb_spec x y); try lia end); try reflexivity.
Lemma embed_unit n F j : form (S n) F -> (j < S n)%nat -> F (embed j unit_n) = (-1) ^ j * F unit_n.
Proof.
  intros HF. induction j as [|j IH]; intros Hj.
  - cbn [pow]. rewrite Rmult_1_l. apply (f_ext _ F HF). intros [|i] k _ _; [reflexivity|]. unfold embed, unit_n. cases.
  - cbn [pow]. rewrite Rmult_assoc, <- IH by lia.
    transitivity (F (row (row (embed j unit_n) 0 (unit_n (S j))) (S j) (unit_n j))).
    + apply (f_ext _ F HF). intros [|i] k _ _; [reflexivity|]. unfold row, embed, unit_n. cases.
    + rewrite (f_swap _ F HF) by lia. 
      rewrite (f_ext _ F HF (row (row (embed j unit_n) 0 (unit_n j)) (S j) (unit_n (S j))) (embed j unit_n)); [ring|].
      intros [|i] k _ _; [reflexivity|]. unfold row, embed, unit_n. cases.
Qed.
Lemma form_det n : forall F, form n F -> forall A, F A = determinant n A * F unit_n.
Proof.
  induction n as [|n IH]; intros F HF A.
  - cbn. rewrite Rmult_1_l. apply (f_ext _ F HF). intros i j Hi; lia.
  - rewrite det_S.
    transitivity (vsum (S n) (fun j => A 0%nat j * F (row A 0 (unit_n j)))).
    + rewrite <- (f_sum _ F HF) by lia. apply (f_ext _ F HF). intros [|i] k _ Hk; [|reflexivity]. unfold row. cbn [Nat.eqb].
      symmetry. apply (vsum_unit (S n) (fun i => A 0%nat i) k Hk).
    + rewrite Rmult_comm, <- vsum_scal. apply vsum_ext. intros j Hj.
      rewrite <- (f_clear _ F HF (row A 0 (unit_n j)) (fun i => - A (S i) j)) by lia.
      transitivity (A 0%nat j * F (embed j (minor A j))).
      * f_equal. apply (f_ext _ F HF). intros [|i] k _ _; [reflexivity|]. unfold row, embed, minor, unit_n. cbn [Nat.eqb].
        destruct (Nat.eqb_spec j k) as [->|Ne].
        -- destruct (Nat.ltb_spec k k); [lia|]. rewrite Nat.eqb_refl. ring.
        -- unfold skip. destruct (Nat.ltb_spec k j).
           ++ ring.
           ++ destruct (Nat.eqb_spec k j); [lia|]. destruct (Nat.ltb_spec (pred k) j); [lia|]. replace (S (pred k)) with k by lia. ring.
      * rewrite (IH (fun B => F (embed j B)) (embed_form n F j HF Hj) (minor A j)), (embed_unit n F j HF Hj). ring.
Qed.

Lemma det_unit n : determinant n unit_n = 1.
Proof.
  induction n as [|n IH]; [reflexivity|]. rewrite det_S, (vsum_one _ _ 0%nat); [|lia|].
  - cbn [pow]. unfold unit_n at 1. cbn. rewrite (det_ext n _ unit_n), IH; [ring|]. intros i k _ _. unfold minor, skip, unit_n. cbn. reflexivity.
  - intros i _ Ne. unfold unit_n at 1. destruct (Nat.eqb_spec 0 i); [lia|ring].
Qed.
Definition mm (n : nat) (a b : nat -> nat -> R) : nat -> nat -> R := fun i j => vsum n (fun k => a i k * b k j).
Lemma det_mul n A B : determinant n (mm n A B) = determinant n A * determinant n B.
Proof.
  assert (HF : form n (fun A => determinant n (mm n A B))).
  { split.
    - intros a b H. apply det_ext. intros i j Hi Hj. unfold mm. apply vsum_ext. intros k Hk. rewrite H by assumption. reflexivity.
    - intros m i x r s Hi. rewrite <- !(f_row n _ (det_form n) (mm n (row m i _) B) i) by exact Hi.
      set (t := fun (r : nat -> R) j => vsum n (fun k => r k * B k j)).
      assert (E : forall r, determinant n (row (mm n (row m i r) B) i (mm n (row m i r) B i)) = determinant n (row (mm n m B) i (t r))).
      { intros q. apply det_ext. intros a b _ _. unfold row, mm, t. destruct (Nat.eqb_spec a i); [subst; rewrite Nat.eqb_refl; reflexivity|].
        reflexivity. }
      rewrite !E, <- (f_lin n _ (det_form n)) by exact Hi. apply det_ext. intros a b _ _. unfold row, t. destruct (a =? i)%nat; [|reflexivity].
      rewrite <- vsum_scal, <- vsum_add. apply vsum_ext. intros k _. ring.
    - intros m i Hi H. apply (f_alt n _ (det_form n) _ i Hi). intros k Hk. unfold mm. apply vsum_ext. intros q Hq. rewrite H by exact Hq. reflexivity. }
  rewrite (form_det n _ HF A). f_equal. apply det_ext. intros i j Hi Hj. unfold mm. 
  rewrite (vsum_one n _ i Hi); unfold unit_n.
  - rewrite Nat.eqb_refl. ring.
  - intros k _ Ne. destruct (Nat.eqb_spec i k); [lia|ring].
Qed.

(** ** columns *)
Definition col (m : nat -> nat -> R) (c : nat) (r : nat -> R) : nat -> nat -> R := fun a b => if (b =? c)%nat then r a else m a b.
Lemma col_lin n : forall m c x r s, (c < n)%nat ->
  determinant n (col m c (fun k => x * r k + s k)) = x * determinant n (col m c r) + determinant n (col m c s).
Proof.
  induction n as [|n IH]; intros m c x r s Hc; [lia|]. rewrite !det_S, <- vsum_scal, <- vsum_add. apply vsum_ext. intros j Hj.
  destruct (Nat.eq_dec j c) as [->|Ne].
  - assert (E : forall t, determinant n (minor (col m c t) c) = determinant n (minor m c)).
    { intros t. apply det_ext. intros a b _ _. unfold minor, col. destruct (Nat.eqb_spec (skip c b) c) as [Q|_]; [destruct (skip_ne c b Q)|reflexivity]. }
    rewrite !E. unfold col. rewrite Nat.eqb_refl. ring.
  - set (c' := if (c <? j)%nat then c else pred c).
    assert (E : forall t, determinant n (minor (col m c t) j) = determinant n (col (minor m j) c' (fun k => t (S k)))).
    { intros t. apply det_ext. intros a b _ _. unfold minor, col, c', skip. cases. }
    rewrite !E, IH by (unfold c'; destruct (Nat.ltb_spec c j); lia). unfold col. destruct (Nat.eqb_spec j c); [lia|]. ring.
Qed.
Lemma col_alt n : forall m c, (S c < n)%nat -> (forall k, (k < n)%nat -> m k c = m k (S c)) -> determinant n m = 0.
Proof.
  induction n as [|n IH]; intros m c Hc H; [lia|]. rewrite det_S.
  set (f := fun j => (-1) ^ j * m 0%nat j * determinant n (minor m j)).
  assert (Z : forall j, (j < S n)%nat -> j <> c -> j <> S c -> f j = 0).
  { intros j Hj N1 N2. unfold f. rewrite (IH (minor m j) (if (c <? j)%nat then c else pred c)); [ring|destruct (Nat.ltb_spec c j); lia|].
    intros k Hk. unfold minor. replace (skip j (if (c <? j)%nat then c else pred c)) with c by (unfold skip; cases; lia).
    replace (skip j (S (if (c <? j)%nat then c else pred c))) with (S c) by (unfold skip; cases; lia). apply H; lia. }
  assert (T : f c + f (S c) = 0).
  { unfold f. rewrite (H 0%nat) by lia. rewrite (det_ext n (minor m (S c)) (minor m c)); [cbn [pow]; ring|].
    intros a b Ha Hb. unfold minor, skip. cases. replace b with c by lia. apply H; lia. }
  clearbody f. clear IH H. revert Z. induction n as [|n IH]; intros Z; [lia|]. cbn [vsum].
  destruct (Nat.eq_dec (S c) (S n)) as [E|E].
  - assert (c = n) by lia. subst c. rewrite vsum_0; [lra|]. intros i Hi. apply Z; lia.
  - rewrite (Z (S n)) by lia. change (vsum n f + f n) with (vsum (S n) f). rewrite IH; [ring|lia|]. intros j Hj. apply Z; lia.
Qed.
Lemma det_tr n A : determinant n (tr A) = determinant n A.
Proof.
  assert (HF : form n (fun A => determinant n (tr A))).
  { split.
    - intros a b H. apply det_ext. intros i j Hi Hj. apply H; assumption.
    - intros m i x r s Hi. exact (col_lin n (tr m) i x r s Hi).
    - intros m i Hi H. apply (col_alt n _ i Hi). exact H. }
  rewrite (form_det n _ HF A), (det_ext n (tr unit_n) unit_n), det_unit; [ring|].
  intros i j _ _. unfold tr, unit_n. cases.
Qed.
(** a first column of zeros but for its head *)
Lemma det_corner n m : (forall i, (i < n)%nat -> m (S i) 0%nat = 0) -> determinant (S n) m = m 0%nat 0%nat * determinant n (fun a b => m (S a) (S b)).
Proof.
  intros H. rewrite <- det_tr, det_S, (vsum_one _ _ 0%nat); [|lia|].
  - cbn [pow]. unfold tr at 1. rewrite <- (det_tr n (fun a b => m (S a) (S b))).
    rewrite (det_ext n (minor (tr m) 0) (tr (fun a b => m (S a) (S b)))); [ring|]. intros a b _ _. reflexivity.
  - intros [|i] Hi Ne; [lia|]. unfold tr at 1. rewrite H by lia. ring.
Qed.
Lemma first_nonzero n (f : nat -> R) : (exists i, (i < n)%nat /\ f i <> 0) \/ forall i, (i < n)%nat -> f i = 0.
Proof.
  induction n as [|n [(i & Hi & N)|Z]]; [right; intros; lia|left; exists i; split; [lia|exact N]|].
  destruct (Req_EM_T (f n) 0) as [E|E]; [right; intros i Hi; destruct (Nat.eq_dec i n); [subst; exact E|apply Z; lia]|left; exists n; split; [lia|exact E]].
Qed.
(** a matrix of determinant 0 has a kernel *)
Lemma det_kernel n : forall m, determinant n m = 0 ->
  exists v : nat -> R, (exists k, (k < n)%nat /\ v k <> 0) /\ forall i, (i < n)%nat -> vsum n (fun k => m i k * v k) = 0.
Proof.
  induction n as [|n IH]; intros m D; [cbn in D; lra|].
  assert (Main : forall m, determinant (S n) m = 0 -> m 0%nat 0%nat <> 0 ->
    exists v : nat -> R, (exists k, (k < S n)%nat /\ v k <> 0) /\ forall i, (i < S n)%nat -> vsum (S n) (fun k => m i k * v k) = 0).
  { clear m D. intros m D N.
    set (x := fun i => - (m (S i) 0%nat / m 0%nat 0%nat)).
    pose proof (f_clear _ _ (det_form (S n)) m x ltac:(lia)) as C. rewrite D, det_corner in C.
    2: { intros i Hi. unfold x. field. exact N. }
    cbv beta iota in C. apply Rmult_integral in C. destruct C as [C|C]; [contradiction|].
    destruct (IH _ C) as (v & (k & Hk & Vk) & Kv).
    set (v0 := - vsum n (fun k => m 0%nat (S k) * v k) / m 0%nat 0%nat).
    exists (fun k => match k with O => v0 | S k => v k end). split; [exists (S k); split; [lia|exact Vk]|].
    assert (R0 : vsum (S n) (fun k => m 0%nat k * match k with O => v0 | S k => v k end) = 0).
    { rewrite vsum_shift. unfold v0. field. exact N. }
    intros [|i] Hi; [exact R0|]. specialize (Kv i ltac:(lia)).
    rewrite vsum_shift.
    rewrite (vsum_ext n _ (fun k => x i * (m 0%nat (S k) * v k) + m (S i) (S k) * v k)) in Kv by (intros; ring).
    rewrite vsum_add, vsum_scal in Kv. unfold v0.
    assert (Ex : m (S i) 0%nat * (- vsum n (fun k => m 0%nat (S k) * v k) / m 0%nat 0%nat) = x i * vsum n (fun k => m 0%nat (S k) * v k)) by (unfold x; field; exact N).
    rewrite Ex. exact Kv. }
  destruct (first_nonzero (S n) (fun i => m i 0%nat)) as [(i & Hi & N)|Z].
  - destruct i as [|i]; [apply Main; assumption|].
    destruct (Main (row (row m 0 (m (S i))) (S i) (m 0%nat))) as (v & Nv & Kv).
    + rewrite (f_swap _ _ (det_form (S n))) by lia. rewrite (det_ext _ _ m), D; [ring|]. intros a b _ _. unfold row. cases; subst; reflexivity.
    + exact N.
    + exists v. split; [exact Nv|]. intros a Ha. destruct (Nat.eq_dec a 0) as [->|N0]; [|destruct (Nat.eq_dec a (S i)) as [->|N1]].
      * specialize (Kv (S i) Hi). rewrite <- Kv. apply vsum_ext. intros k _. unfold row. rewrite Nat.eqb_refl. reflexivity.
      * specialize (Kv 0%nat ltac:(lia)). rewrite <- Kv. apply vsum_ext. intros k _. reflexivity.
      * specialize (Kv a Ha). rewrite <- Kv. apply vsum_ext. intros k _. unfold row. cases.
  - exists (fun k => unit_n k 0%nat). split; [exists 0%nat; split; [lia|unfold unit_n; cbn; lra]|].
    intros i Hi. rewrite (vsum_unit (S n) (fun k => m i k) 0) by lia. apply Z, Hi.
Qed.
