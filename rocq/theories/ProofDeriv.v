From Coquelicot Require Import Coquelicot.
From Coq Require Import Permutation.
From Verif Require Import Base ModelExpr ModelUtils ModelField SpecTensor SpecField ProofTensor ProofField ProofPixel.
Open Scope R_scope.
Notation length := List.length.

(** ** Families of reduced derivatives *)
(** [f n i] is entry [i] of the reduced tensor of order [n] *)
Definition fam := nat -> nat -> p3 -> R.
Definition RD (f : fam) (n : nat) (p : p3) : Prop :=
  forall i k, (i < 2 * n + 1)%nat -> (k < 3)%nat ->
    partial (f n i) k p (red_val (fun j => f (S n) j p) (target n i k)).

Lemma partial_ext f g k p l : (forall q, f q = g q) -> partial f k p l -> partial g k p l.
Proof. intros E. apply is_derive_ext. intros t. apply E. Qed.
Lemma partial_zero k p : partial (fun _ => 0) k p 0.
Proof. unfold partial. auto_derive; auto. Qed.
Lemma partial_plus f g k p a b : partial f k p a -> partial g k p b ->
  partial (fun q => f q + g q) k p (a + b).
Proof. intros H1 H2. exact (is_derive_plus _ _ _ _ _ H1 H2). Qed.
Lemma partial_scal c f k p a : partial f k p a -> partial (fun q => c * f q) k p (c * a).
Proof. intros H. exact (is_derive_scal _ _ c _ H). Qed.
Lemma partial_opp f k p a : partial f k p a -> partial (fun q => - f q) k p (- a).
Proof.
  intros H. exact (is_derive_opp _ _ _ H).
Qed.
Lemma partial_minus f g k p a b : partial f k p a -> partial g k p b ->
  partial (fun q => f q - g q) k p (a - b).
Proof. intros H1 H2. apply partial_plus; [exact H1|now apply partial_opp]. Qed.
Lemma partial_sum {A} (l : list A) (f : A -> p3 -> R) k p a :
  (forall x, In x l -> partial (f x) k p (a x)) ->
  partial (fun q => sum_over l (fun x => f x q)) k p (sum_over l a).
Proof.
  induction l as [|x l IH]; intros H.
  - apply partial_zero.
  - change (partial (fun q => f x q + sum_over l (fun x => f x q)) k p (a x + sum_over l a)).
    apply partial_plus; [apply H; now left|apply IH; intros; apply H; now right].
Qed.

Lemma red_val_ext c c' e : (forall i, c i = c' i) -> red_val c e = red_val c' e.
Proof. intros H. destruct e; cbn; now rewrite ?H. Qed.
Lemma red_val_sum {A} (l : list A) (c : A -> nat -> R) e :
  red_val (fun i => sum_over l (fun a => c a i)) e = sum_over l (fun a => red_val (c a) e).
Proof.
  destruct e; cbn [red_val]; [reflexivity|].
  induction l as [|x l IH]; [unfold sum_over; cbn; ring|]. rewrite !sum_cons, <- IH. ring.
Qed.
Lemma red_val_scal v c e : red_val (fun i => v * c i) e = v * red_val c e.
Proof. destruct e; cbn [red_val]; ring. Qed.

Lemma RD_ext (f g : fam) n p : (forall n i q, f n i q = g n i q) -> RD f n p -> RD g n p.
Proof.
  intros E H i k Hi Hk.
  rewrite <- (red_val_ext (fun j => f (S n) j p)) by (intros; apply E).
  eapply partial_ext; [intros q; apply E|]. now apply H.
Qed.
Lemma RD_sum {A} (l : list A) (f : A -> fam) n p :
  (forall x, In x l -> RD (f x) n p) -> RD (fun n i q => sum_over l (fun x => f x n i q)) n p.
Proof.
  intros H i k Hi Hk. rewrite red_val_sum. apply partial_sum. intros x Hx. now apply (H x Hx).
Qed.
Lemma RD_scal c (f : fam) n p : RD f n p -> RD (fun n i q => c * f n i q) n p.
Proof. intros H i k Hi Hk. rewrite red_val_scal. apply partial_scal. now apply H. Qed.
Lemma image_move h j k t p : image h j (move k t p) = move k t (image h j p).
Proof. destruct k as [|[|k]]; unfold image, move; cbn [px py pz]; f_equal; ring. Qed.
Lemma RD_image h j (f : fam) n p : RD f n (image h j p) -> RD (fun n i q => f n i (image h j q)) n p.
Proof.
  intros H i k Hi Hk. unfold partial. eapply is_derive_ext; [|apply (H i k Hi Hk)].
  intros t. cbn beta. now rewrite image_move.
Qed.

Lemma dist_pos_sq p v : 0 < dist p v ->
  0 < (px p - fst v) ^ 2 + (py p - snd v) ^ 2 + pz p ^ 2.
Proof.
  unfold dist. intros H. pose proof (sq3_nonneg (px p - fst v) (py p - snd v) (pz p)) as N.
  destruct (Req_dec ((px p - fst v) ^ 2 + (py p - snd v) ^ 2 + pz p ^ 2) 0) as [E|E]; [|lra].
  rewrite E, sqrt_0 in H. lra.
Qed.
Lemma RD_pixel v n p : (n <= 4)%nat -> 0 < dist p v -> RD (fun d i q => pixel_term d v i q) n p.
Proof.
  intros Hn Hp i k Hi Hk. apply dist_pos_sq in Hp. unfold partial.
  change (red_val (fun j => pixel_term (S n) v j p) (target n i k))
    with (red_val (fun j => pterm (S n) j (px p - fst v) (py p - snd v) (pz p)) (target n i k)).
  destruct k as [|[|[|k]]]; [| | |lia].
  - eapply is_derive_ext; [|now apply pterm_dx]. intros t. unfold pixel_term, pterm, dist, move; cbn [px py pz].
    now replace (px p + t - fst v) with (px p - fst v + t) by ring.
  - eapply is_derive_ext; [|now apply pterm_dy]. intros t. unfold pixel_term, pterm, dist, move; cbn [px py pz].
    now replace (py p + t - snd v) with (py p - snd v + t) by ring.
  - eapply is_derive_ext; [|now apply pterm_dz]. intros t. reflexivity.
Qed.

Lemma RD_point pixels m h n p : (n <= 4)%nat -> off_electrode (EPoint pixels m h) p ->
  RD (fun d i q => unit_term (EPoint pixels m h) d i q) n p.
Proof.
  intros Hn Ho.
  apply (RD_sum pixels (fun va d i q => snd va *
     sum_over (images m) (fun k => pixel_term d (fst va) i (image h k q)))).
  intros [v a] Hv. apply RD_scal. apply (RD_sum (images m) (fun k d i q => pixel_term d v i (image h k q))).
  intros k Hk. apply (RD_image h k (fun d i q => pixel_term d v i q)).
  apply RD_pixel; [exact Hn|]. eapply Ho; eauto.
Qed.

Lemma RD_cover h n p : (n <= 4)%nat -> RD (fun d i q => unit_term (ECover h) d i q) n p.
Proof.
  intros Hn i k Hi Hk. unfold partial, unit_term.
  destruct n as [|[|n]].
  - destruct i as [|i]; [|lia].
    destruct k as [|[|[|k]]]; [| | |lia]; cbn; auto_derive; auto; try field_simplify; unfold Rdiv; try ring.
  - eapply is_derive_eq; [apply (is_derive_const (V := R_NormedModule))|].
    unfold zero; cbn. destruct (target 1 i k); cbn; ring.
  - eapply is_derive_eq; [apply (is_derive_const (V := R_NormedModule))|].
    unfold zero; cbn. destruct (target (S (S n)) i k); cbn; ring.
Qed.

(** ** From the reduced to the expanded tensors *)
Definition lin_ent (n : nat) (e : ent) (k : nat) : list Z :=
  let m := (2 * (S n) + 1)%nat in
  match e with
  | Sel i => coefs m (target n i k)
  | Lap a b => zadd (zneg (coefs m (target n a k))) (zneg (coefs m (target n b k)))
  end.
Lemma lift_check :
  forallb (fun n => forallb (fun k => forallb (fun idx =>
    forallb (fun ab => Z.eqb (fst ab) (snd ab))
      (combine (coefs (2 * (S n) + 1) (entry (S n) (k :: idx))) (lin_ent n (entry n idx) k)))
    (product3 n)) [0; 1; 2]%nat) (seq 0 5) = true.
Proof. vm_compute. reflexivity. Qed.
Lemma list_eq_check (a b : list Z) : length a = length b ->
  forallb (fun ab => Z.eqb (fst ab) (snd ab)) (combine a b) = true -> a = b.
Proof.
  revert b. induction a as [|x a IH]; intros [|y b] HL H; try discriminate; [reflexivity|].
  cbn in H. apply andb_prop in H. destruct H as [H1 H2]. apply Z.eqb_eq in H1. subst y.
  f_equal. apply IH; auto.
Qed.
Lemma lin_ent_length n e k : length (lin_ent n e k) = (2 * (S n) + 1)%nat.
Proof.
  destruct e; unfold lin_ent; [apply coefs_length|].
  rewrite zadd_length; unfold zneg; rewrite ?map_length, ?coefs_length; reflexivity.
Qed.
Lemma lift_entry n k idx : (n <= 4)%nat -> (k < 3)%nat -> idx_of_order n idx ->
  coefs (2 * (S n) + 1) (entry (S n) (k :: idx)) = lin_ent n (entry n idx) k.
Proof.
  intros Hn Hk Hi. apply list_eq_check; [now rewrite coefs_length, lin_ent_length|].
  pose proof lift_check as H. rewrite forallb_forall in H.
  specialize (H n ltac:(apply in_seq; lia)). rewrite forallb_forall in H.
  specialize (H k ltac:(cbn; lia)). rewrite forallb_forall in H.
  apply H. now apply product3_in.
Qed.

Lemma tab_nth (m : nat) (f : nat -> R) i : (i < m)%nat -> nth i (tab m f) 0 = f i.
Proof.
  intros Hi. unfold tab. rewrite (nth_indep _ 0 (f 0%nat)) by (now rewrite map_length, seq_length).
  rewrite map_nth, seq_nth by exact Hi. reflexivity.
Qed.
Lemma tab_length {A} (m : nat) (f : nat -> A) : length (tab m f) = m.
Proof. unfold tab. now rewrite map_length, seq_length. Qed.
Lemma ent_val_tab m f e : ent_lt m e = true -> ent_val (tab m f) e = red_val f e.
Proof.
  destruct e as [i|a b]; cbn [ent_lt ent_val red_val]; intros H.
  - apply Nat.ltb_lt in H. now apply tab_nth.
  - apply andb_prop in H. destruct H as [H1 H2]. apply Nat.ltb_lt in H1, H2.
    now rewrite !tab_nth.
Qed.

Lemma target_lt n i k : (n <= 4)%nat -> (i < 2 * n + 1)%nat -> (k < 3)%nat ->
  ent_lt (2 * (S n) + 1) (target n i k) = true.
Proof.
  intros Hn Hi Hk.
  destruct (nth_error (names_of n) i) as [s|] eqn:E.
  - destruct (named_entry n i s ltac:(lia) E) as (idx & E1 & [E2 E3] & _).
    unfold target. rewrite (nth_error_nth _ _ ""%string E). unfold name_idx. rewrite E1.
    apply entry_single; [lia|]. split; [cbn; lia|now constructor].
  - apply nth_error_None in E. rewrite names_of_length in E by lia. lia.
Qed.

Lemma RD_expand (f : fam) n p idx k : (n <= 4)%nat -> (k < 3)%nat -> idx_of_order n idx ->
  RD f n p ->
  partial (fun q => expanded n (tab (2 * n + 1) (fun i => f n i q)) idx) k p
    (expanded (S n) (tab (2 * (S n) + 1) (fun i => f (S n) i p)) (k :: idx)).
Proof.
  intros Hn Hk Hi H. set (c' := tab (2 * S n + 1) (fun i => f (S n) i p)).
  assert (LC : length c' = (2 * S n + 1)%nat) by apply tab_length.
  pose proof (lift_entry n k idx Hn Hk Hi) as L.
  unfold expanded. rewrite <- (zdot_coefs c' (entry (S n) (k :: idx))), LC, L.
  destruct (entry_single n idx ltac:(lia) Hi) as [_ Hlt].
  assert (V : forall i, (i < 2 * n + 1)%nat ->
    zdot (coefs (2 * S n + 1) (target n i k)) c' = red_val (fun j => f (S n) j p) (target n i k)).
  { intros i Hi'. rewrite <- LC, zdot_coefs. unfold c'. apply ent_val_tab. now apply target_lt. }
  destruct (entry n idx) as [i|a b]; cbn [ent_lt lin_ent ent_val] in *.
  - apply Nat.ltb_lt in Hlt. rewrite V by exact Hlt.
    apply (partial_ext (f n i)); [intros q; now rewrite tab_nth|]. now apply H.
  - apply andb_prop in Hlt. destruct Hlt as [H1 H2]. apply Nat.ltb_lt in H1, H2.
    rewrite zdot_add by (unfold zneg; rewrite !map_length, !coefs_length; reflexivity).
    rewrite !zdot_neg, !V by assumption.
    apply (partial_ext (fun q => - f n a q - f n b q)); [intros q; now rewrite !tab_nth by assumption|].
    apply partial_minus; [apply partial_opp|]; now apply H.
Qed.

(** ** Systems *)
Definition sys_term (s : list electrode) (t : vtyp) : fam := fun d i p =>
  sum_over s (fun e => volt_of t e * unit_term (egeom e) d i p).

Lemma row_tab (r : row) m f : length r = m -> (forall i, (i < m)%nat -> nth i r 0 = f i) -> r = tab m f.
Proof.
  intros HL H. apply (nth_ext _ _ 0 0); [now rewrite tab_length|].
  intros i Hi. rewrite H by lia. rewrite tab_nth; [reflexivity|lia].
Qed.
Lemma electrical_one s t d p : (forall e, In e s -> well_formed (egeom e)) ->
  electrical_potential s [p] d t = Ok [tab (2 * d + 1) (fun i => sys_term s t d i p)].
Proof.
  intros W. destruct (electrical_spec s [p] d t W) as (pot & E & [L F] & C). rewrite E. f_equal.
  destruct pot as [|r [|r' pot]]; cbn in L; try lia. f_equal. inversion F; subst.
  apply row_tab; [assumption|]. intros i Hi. specialize (C 0%nat i ltac:(cbn; lia)). exact C.
Qed.
Lemma expanded_one s t d p : (forall e, In e s -> well_formed (egeom e)) -> (d <= 5)%nat ->
  electrical_potential_expanded s [p] d t =
  Ok [map (expanded d (tab (2 * d + 1) (fun i => sys_term s t d i p))) (product3 d)].
Proof.
  intros W Hd. unfold electrical_potential_expanded. rewrite electrical_one by exact W.
  cbn [bind map collect]. rewrite (expand_tensor_ok d) by (auto; apply tab_length). reflexivity.
Qed.
Lemma returns_ok s t d p : (forall e, In e s -> well_formed (egeom e)) -> (d <= 5)%nat ->
  returns_tensor s t d p.
Proof.
  intros W Hd. unfold returns_tensor. rewrite expanded_one by assumption.
  eexists. split; [reflexivity|]. now rewrite map_length, product3_length.
Qed.
Lemma tensor_entry_eq s t d idx p : (forall e, In e s -> well_formed (egeom e)) -> (d <= 5)%nat ->
  idx_of_order d idx ->
  tensor_entry s t d idx p = expanded d (tab (2 * d + 1) (fun i => sys_term s t d i p)) idx.
Proof.
  intros W Hd [Hl Hx]. unfold tensor_entry. rewrite expanded_one by assumption.
  apply nth_error_nth. rewrite nth_error_map. subst d. now rewrite product3_nth.
Qed.
Lemma RD_system s t n p : (forall e, In e s -> RD (unit_term (egeom e)) n p) -> RD (sys_term s t) n p.
Proof.
  intros H. apply (RD_sum s (fun e d i q => volt_of t e * unit_term (egeom e) d i q)).
  intros e He. apply RD_scal. now apply H.
Qed.
Lemma system_derivatives s t n p idx k :
  (forall e, In e s -> well_formed (egeom e)) -> (n <= 4)%nat ->
  (forall e, In e s -> RD (unit_term (egeom e)) n p) -> (k < 3)%nat -> idx_of_order n idx ->
  partial (tensor_entry s t n idx) k p (tensor_entry s t (S n) (k :: idx) p).
Proof.
  intros W Hn H Hk Hi.
  assert (Hi' : idx_of_order (S n) (k :: idx)).
  { destruct Hi; split; [cbn [length]; lia|now constructor]. }
  rewrite (tensor_entry_eq s t (S n) (k :: idx) p W) by (try lia; exact Hi').
  apply (partial_ext (fun q => expanded n (tab (2 * n + 1) (fun i => sys_term s t n i q)) idx)).
  { intros q. symmetry. apply tensor_entry_eq; auto. }
  apply RD_expand; auto. now apply RD_system.
Qed.
