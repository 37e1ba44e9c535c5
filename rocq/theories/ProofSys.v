(** Time dependence, pseudopotential, total potential, orders (C07-C11) and
    Laplace's equation (C21). *)
From Coquelicot Require Import Coquelicot.
From Coq Require Import Permutation.
From Verif Require Import Base ModelExpr ModelUtils ModelField SpecTensor SpecField ProofTensor ProofField ProofPixel ProofDeriv.
Open Scope R_scope.
Notation length := List.length.

Notation wf s := (forall e, In e s -> well_formed (egeom e)).

(** ** C07 *)
Lemma radd_cell d n a b c : shaped_rows d n a -> shaped_rows d n b ->
  forall j i, (j < n)%nat -> cell (radd a (rscale c b)) j i = cell a j i + c * cell b j i.
Proof.
  intros [La Fa] [Lb Fb] j i Hj. unfold cell, radd, rscale.
  rewrite (@map2_nth row row row _ a (map (map (Rmult c)) b) [] [] []); [|now rewrite map_length, La, Lb|lia].
  rewrite Forall_forall in Fa, Fb.
  assert (Ha : length (nth j a []) = (2 * d + 1)%nat) by (apply Fa, nth_In; lia).
  assert (Hb : length (nth j b []) = (2 * d + 1)%nat) by (apply Fb, nth_In; lia).
  change (@nil R) with (map (Rmult c) []) at 2. rewrite (map_nth (map (Rmult c))).
  destruct (Nat.lt_ge_cases i (2 * d + 1)) as [Hi|Hi].
  - rewrite (@map2_nth R R R _ _ _ 0 0 0); [|rewrite map_length; lia|lia].
    f_equal. replace 0 with (c * 0) at 1 by ring. apply (map_nth (Rmult c)).
  - rewrite !nth_overflow; [ring|lia|lia|]. rewrite map2_length; rewrite ?map_length; lia.
Qed.
Lemma time_spec s xs d t : wf s ->
  exists dc rf pot, electrical_potential s xs d TDc = Ok dc /\
    electrical_potential s xs d TRf = Ok rf /\
    time_potential s xs d t false = Ok pot /\
    forall j i, (j < length xs)%nat -> cell pot j i = cell dc j i + cos t * cell rf j i.
Proof.
  intros W. destruct (electrical_spec s xs d TDc W) as (dc & E1 & S1 & _).
  destruct (electrical_spec s xs d TRf W) as (rf & E2 & S2 & _).
  exists dc, rf, (radd dc (rscale (cos t) rf)). repeat (split; [assumption|]).
  split; [unfold time_potential; now rewrite E1, E2|].
  intros j i Hj. now apply (radd_cell d (length xs)).
Qed.
Lemma collect_length {A} (l : list (res A)) r : collect l = Ok r -> length r = length l.
Proof.
  revert r. induction l as [|x l IH]; intros r H; cbn [collect] in H.
  - now injection H as <-.
  - destruct x as [a|e]; cbn [bind] in H; [|discriminate].
    destruct (collect l) as [r'|]; cbn [bind] in H; [|discriminate].
    injection H as <-. cbn. f_equal. now apply IH.
Qed.
Lemma collect_nth {A} (l : list (res A)) r j (a : A) : collect l = Ok r -> (j < length l)%nat ->
  nth_error l j = Some (Ok (nth j r a)).
Proof.
  revert r j. induction l as [|x l IH]; intros r j H Hj; cbn [collect] in H; [cbn in Hj; lia|].
  destruct x as [b|e]; cbn [bind] in H; [|discriminate].
  destruct (collect l) as [r'|] eqn:E; cbn [bind] in H; [|discriminate].
  injection H as <-. destruct j as [|j]; [reflexivity|]. cbn. apply IH; [reflexivity|cbn in Hj; lia].
Qed.
Lemma expanded_many s xs d t : wf s -> (d <= 5)%nat ->
  exists pot, electrical_potential_expanded s xs d t = Ok pot /\ length pot = length xs /\
    forall j, (j < length xs)%nat -> nth j pot [] =
      map (expanded d (tab (2 * d + 1) (fun i => sys_term s t d i (at_ xs j)))) (product3 d).
Proof.
  intros W Hd. destruct (electrical_spec s xs d t W) as (pot & E & [L F] & C).
  unfold electrical_potential_expanded. rewrite E. cbn [bind].
  assert (X : collect (map expand_tensor pot) =
    Ok (map (fun c => map (expanded d c) (product3 d)) pot)).
  { apply collect_ok. intros c Hc. apply expand_tensor_ok; [exact Hd|].
    rewrite Forall_forall in F. now apply F. }
  rewrite X. eexists. split; [reflexivity|]. split; [now rewrite map_length|].
  intros j Hj. rewrite (nth_indep _ [] (map (expanded d []) (product3 d))) by (rewrite map_length; lia).
  rewrite (map_nth (fun c => map (expanded d c) (product3 d))). f_equal. f_equal.
  rewrite Forall_forall in F. apply row_tab; [apply F, nth_In; lia|].
  intros i Hi. apply (C j i Hj).
Qed.
Lemma time_spec_expanded s xs d t : wf s -> (d <= 5)%nat ->
  exists pot, time_potential s xs d t true = Ok pot /\ length pot = length xs /\
    forall j idx, (j < length xs)%nat -> idx_of_order d idx ->
      nth (rowmajor idx) (nth j pot []) 0 =
      tensor_entry s TDc d idx (at_ xs j) + cos t * tensor_entry s TRf d idx (at_ xs j).
Proof.
  intros W Hd. destruct (expanded_many s xs d TDc W Hd) as (dc & E1 & L1 & C1).
  destruct (expanded_many s xs d TRf W Hd) as (rf & E2 & L2 & C2).
  exists (radd dc (rscale (cos t) rf)).
  split; [unfold time_potential; now rewrite E1, E2|].
  split; [unfold radd, rscale; rewrite map2_length; rewrite ?map_length; lia|].
  intros j idx Hj Hi. unfold radd, rscale.
  rewrite (@map2_nth row row row _ dc (map (map (Rmult (cos t))) rf) [] [] []);
    [|rewrite map_length; lia|lia].
  change (@nil R) with (map (Rmult (cos t)) []) at 2. rewrite (map_nth (map (Rmult (cos t)))).
  rewrite C1, C2 by exact Hj. rewrite !tensor_entry_eq by assumption.
  assert (HL : (rowmajor idx < 3 ^ d)%nat) by (destruct Hi as [<- Hi]; now apply rowmajor_lt).
  assert (Hp : forall c, nth (rowmajor idx) (map (expanded d c) (product3 d)) 0 = expanded d c idx).
  { intros c. apply nth_error_nth. rewrite nth_error_map. destruct Hi as [<- Hi]. now rewrite product3_nth. }
  rewrite (@map2_nth R R R _ _ _ 0 0 0); [|now rewrite !map_length|rewrite map_length, product3_length; lia].
  rewrite Hp. f_equal. replace 0 with (cos t * 0) at 1 by ring. rewrite (map_nth (Rmult (cos t))).
  now rewrite Hp.
Qed.

(** ** Pseudopotential *)
Lemma rf_tensor_ok s p d : wf s -> (d <= 5)%nat ->
  exists r, rf_tensor s p d = Ok r /\ forall idx, tensor_of r idx = tensor_entry s TRf d idx p.
Proof.
  intros W Hd. unfold rf_tensor, tensor_entry, tensor_of. rewrite expanded_one by assumption.
  eexists. split; [reflexivity|]. intros idx. cbn. now rewrite idx_to_nidx_rowmajor.
Qed.
Definition rf_tensors (c : R) (s : list electrode) (p : p3) (i : nat) : tensor :=
  fun idx => c * tensor_entry s TRf (S i) idx p.

Ltac rf_ok W d := let r := fresh "r" in let E := fresh "E" in let V := fresh "V" in
  destruct (rf_tensor_ok _ _ d W ltac:(lia)) as (r & E & V).

Lemma pseudo_value c s p d : wf s -> (d <= 4)%nat ->
  exists T T', pseudo_potential (Some c) s p d = Ok T /\
    pseudo_tensor d (rf_tensors c s p) = Some T' /\ forall idx, T idx = T' idx.
Proof.
  intros W Hd.
  destruct (rf_tensor_ok s p 1 W ltac:(lia)) as (r1 & E1 & V1).
  destruct (rf_tensor_ok s p 2 W ltac:(lia)) as (r2 & E2 & V2).
  destruct (rf_tensor_ok s p 3 W ltac:(lia)) as (r3 & E3 & V3).
  destruct (rf_tensor_ok s p 4 W ltac:(lia)) as (r4 & E4 & V4).
  destruct (rf_tensor_ok s p 5 W ltac:(lia)) as (r5 & E5 & V5).
  do 5 (destruct d as [|d];
    [unfold pseudo_potential; cbn [Nat.add seq map collect]; rewrite ?E1, ?E2, ?E3, ?E4, ?E5;
     cbn [bind pseudo_tensor nth]; eexists; eexists; split; [reflexivity|]; split; [reflexivity|];
     unfold rf_tensors, sum3;
     intros idx; cbn beta;
     first [reflexivity |
       destruct idx as [|? [|? [|? [|? [|? ?]]]]]; try reflexivity; cbn beta zeta;
       rewrite ?V1, ?V2, ?V3, ?V4, ?V5; reflexivity
     | rewrite ?V1; reflexivity]|]).
  lia.
Qed.
Lemma pseudo_entry_eq c s p d idx : wf s -> (d <= 4)%nat ->
  exists T', pseudo_tensor d (rf_tensors c s p) = Some T' /\ pseudo_entry c s d idx p = T' idx.
Proof.
  intros W Hd. destruct (pseudo_value c s p d W Hd) as (T & T' & E & E' & H).
  exists T'. split; [exact E'|]. unfold pseudo_entry. rewrite E. apply H.
Qed.
Lemma sum3_eq (f : nat -> R) : sum3 f = f 0%nat + f 1%nat + f 2%nat.
Proof. unfold sum3. ring. Qed.
Lemma pseudo0 c s p : wf s -> pseudo_entry c s 0 [] p =
  c ^ 2 * (tensor_entry s TRf 1 [0%nat] p ^ 2 + tensor_entry s TRf 1 [1%nat] p ^ 2
         + tensor_entry s TRf 1 [2%nat] p ^ 2).
Proof.
  intros W. destruct (pseudo_entry_eq c s p 0 [] W ltac:(lia)) as (T & E & ->).
  cbn in E. injection E as <-. rewrite sum3_eq. unfold rf_tensors. ring.
Qed.

(** pseudo_tensor is homogeneous of degree 2 *)
Lemma pseudo_tensor_scale d (p q : nat -> tensor) a T U :
  (forall i idx, q i idx = a * p i idx) ->
  pseudo_tensor d p = Some T -> pseudo_tensor d q = Some U ->
  forall idx, U idx = a ^ 2 * T idx.
Proof.
  intros H ET EU idx.
  do 5 (destruct d as [|d];
    [injection ET as <-; injection EU as <-;
     first [ rewrite ?sum3_eq, ?H; ring
           | destruct idx as [|? [|? [|? [|? [|? ?]]]]]; cbv zeta; rewrite ?sum3_eq, ?H; ring]|]).
  discriminate.
Qed.
Lemma pseudo_scale_coeff a c s p d idx : wf s -> (d <= 4)%nat ->
  pseudo_entry (a * c) s d idx p = a ^ 2 * pseudo_entry c s d idx p.
Proof.
  intros W Hd. destruct (pseudo_entry_eq c s p d idx W Hd) as (T & E & ->).
  destruct (pseudo_entry_eq (a * c) s p d idx W Hd) as (U & F & ->).
  eapply pseudo_tensor_scale; eauto. intros. unfold rf_tensors. ring.
Qed.
Lemma scale_rf_wf a s : wf s -> wf (scale_rf a s).
Proof.
  intros W e He. unfold scale_rf in He. apply in_map_iff in He. destruct He as (e' & <- & He').
  cbn. now apply W.
Qed.
Lemma sys_scale a s d i p : sys_term (scale_rf a s) TRf d i p = a * sys_term s TRf d i p.
Proof.
  unfold sys_term, scale_rf. rewrite sum_map. rewrite <- sum_scal. apply sum_ext. intros e _. cbn. ring.
Qed.
Lemma tensor_entry_any s t d idx p : wf s -> (d <= 5)%nat ->
  tensor_entry s t d idx p =
  nth (rowmajor idx) (map (expanded d (tab (2 * d + 1) (fun i => sys_term s t d i p))) (product3 d)) 0.
Proof. intros W Hd. unfold tensor_entry. now rewrite expanded_one. Qed.
Lemma expanded_scale n a c c' idx : (n <= 5)%nat -> length c = length c' ->
  (forall i, nth i c' 0 = a * nth i c 0) -> expanded n c' idx = a * expanded n c idx.
Proof.
  intros Hn HL H. unfold expanded. destruct (entry n idx); cbn [ent_val]; rewrite !H; ring.
Qed.
Lemma rf_entry_scale a s d idx p : wf s -> (d <= 5)%nat ->
  tensor_entry (scale_rf a s) TRf d idx p = a * tensor_entry s TRf d idx p.
Proof.
  intros W Hd. rewrite !tensor_entry_any by (try assumption; now apply scale_rf_wf).
  set (c' := tab _ (fun i => sys_term (scale_rf a s) TRf d i p)).
  set (c := tab _ (fun i => sys_term s TRf d i p)).
  assert (X : forall i, nth i c' 0 = a * nth i c 0).
  { intros i. destruct (Nat.lt_ge_cases i (2 * d + 1)).
    - unfold c, c'. rewrite !tab_nth by assumption. apply sys_scale.
    - unfold c, c'. rewrite !nth_overflow by (rewrite tab_length; lia). ring. }
  destruct (Nat.lt_ge_cases (rowmajor idx) (3 ^ d)) as [Hl|Hl].
  - destruct (nth_error (product3 d) (rowmajor idx)) as [j|] eqn:E.
    + rewrite !(nth_error_nth _ _ 0 (map_nth_error _ _ _ E)).
      apply expanded_scale; auto. unfold c, c'. now rewrite !tab_length.
    + apply nth_error_None in E. rewrite product3_length in E. lia.
  - rewrite !nth_overflow by (rewrite map_length, product3_length; lia). ring.
Qed.
Lemma pseudo_scale_volts a c s p d idx : wf s -> (d <= 4)%nat ->
  pseudo_entry c (scale_rf a s) d idx p = a ^ 2 * pseudo_entry c s d idx p.
Proof.
  intros W Hd. destruct (pseudo_entry_eq c s p d idx W Hd) as (T & E & ->).
  destruct (pseudo_entry_eq c (scale_rf a s) p d idx (scale_rf_wf a s W) Hd) as (U & F & ->).
  destruct (Nat.eq_dec d 5) as [->|_]; [discriminate|].
  assert (H : forall i idx, (i <= 4)%nat -> rf_tensors c (scale_rf a s) p i idx = a * rf_tensors c s p i idx).
  { intros i idx' Hi. unfold rf_tensors. rewrite rf_entry_scale by (auto; lia). ring. }
  do 5 (destruct d as [|d];
    [injection E as <-; injection F as <-;
     first [ rewrite ?sum3_eq, ?H by lia; ring
           | destruct idx as [|? [|? [|? [|? [|? ?]]]]]; cbv zeta; rewrite ?sum3_eq, ?H by lia; ring]|]).
  lia.
Qed.

Lemma rf_entry_sym s d i j p : wf s -> (d <= 5)%nat -> idx_of_order d i -> Permutation i j ->
  tensor_entry s TRf d i p = tensor_entry s TRf d j p.
Proof.
  intros W Hd Hi HP. rewrite !tensor_entry_eq; auto.
  - now apply (expanded_sym d).
  - eapply order_perm; eauto.
Qed.

(** generators of the permutations: exchange of neighbours *)
Lemma symmetric_swaps n (T : tens) :
  (forall l1 a b l2, idx_of_order n (l1 ++ a :: b :: l2) ->
     T (l1 ++ a :: b :: l2) = T (l1 ++ b :: a :: l2)) -> symmetric n T.
Proof.
  intros H. enough (G : forall (i j : list nat), Permutation i j -> forall pre, idx_of_order n (pre ++ i) ->
    T (pre ++ i) = T (pre ++ j)) by (intros i j Hi HP; exact (G i j HP [] Hi)).
  induction 1 as [|x l l' HP IH|x y l|l l' l'' HP1 IH1 HP2 IH2]; intros pre Hi.
  - reflexivity.
  - change (x :: l) with ([x] ++ l) in *. change (x :: l') with ([x] ++ l').
    rewrite app_assoc in *. rewrite app_assoc. now apply IH.
  - now apply H.
  - rewrite IH1 by exact Hi. apply IH2. eapply order_perm; [exact Hi|].
    now apply Permutation_app_head.
Qed.
Lemma idx_split n i : idx_of_order n i -> length i = n. Proof. now intros []. Qed.


Ltac idx_ok := split; [reflexivity|repeat (apply Forall_cons; [lia|]); apply Forall_nil].
Lemma sum3_ext f g : (forall j, (j < 3)%nat -> f j = g j) -> sum3 f = sum3 g.
Proof. intros H. rewrite !sum3_eq. rewrite !H by lia. reflexivity. Qed.
(** exchange of neighbouring indices, for symmetric tensors [P i] of order i+1 *)
Lemma pseudo_swap d (P : nat -> tensor) T l1 a b l2 : (d <= 4)%nat ->
  idx_of_order d (l1 ++ a :: b :: l2) ->
  (forall i idx idx', (i <= 4)%nat -> idx_of_order (S i) idx -> Permutation idx idx' -> P i idx = P i idx') ->
  pseudo_tensor d P = Some T -> T (l1 ++ a :: b :: l2) = T (l1 ++ b :: a :: l2).
Proof.
  intros Hd [HL HA] HP ET.
  assert (B : forall x, In x (l1 ++ a :: b :: l2) -> (x < 3)%nat) by (now apply Forall_forall).
  assert (Ha : (a < 3)%nat) by (apply B, in_or_app; cbn; auto).
  assert (Hb : (b < 3)%nat) by (apply B, in_or_app; cbn; auto).
  rewrite app_length in HL. cbn [length] in HL.
  destruct d as [|[|[|[|[|d]]]]]; [lia|lia| | | |lia]; injection ET as <-.
  - destruct l1 as [|]; [|cbn in HL; lia]. destruct l2 as [|]; [|cbn in HL; lia]. cbn [app].
    f_equal. f_equal; apply sum3_ext; intros j Hj; [ring|]. f_equal.
    apply HP; [lia|idx_ok|apply perm_skip, perm_swap].
  - set (A := fun k l m => sum3 (fun j => P 0%nat [j] * P 3%nat [j; k; l; m])).
    set (Bt := fun k l m => sum3 (fun j => P 1%nat [j; k] * P 2%nat [j; l; m])).
    assert (SB : forall k l m, (k < 3)%nat -> (l < 3)%nat -> (m < 3)%nat -> Bt k l m = Bt k m l).
    { intros k l m Hk Hl Hm. apply sum3_ext. intros j Hj. f_equal.
      apply HP; [lia|idx_ok|apply perm_skip, perm_swap]. }
    destruct l1 as [|x [|]]; [| |cbn in HL; lia].
    + destruct l2 as [|x [|]]; [cbn in HL; lia| |cbn in HL; lia]. cbn [app].
      assert (Hx : (x < 3)%nat) by (apply B; cbn; auto).
      assert (EA : A a b x = A b a x).
      { apply sum3_ext. intros j Hj. f_equal. apply HP; [lia|idx_ok|apply perm_skip, perm_swap]. }
      change (2 * (A a b x + Bt a b x + Bt b a x + Bt x b a) = 2 * (A b a x + Bt b a x + Bt a b x + Bt x a b)).
      rewrite EA, (SB x b a) by lia. ring.
    + destruct l2 as [|]; [|cbn in HL; lia]. cbn [app].
      assert (Hx : (x < 3)%nat) by (apply B; cbn; auto).
      assert (EA : A x a b = A x b a).
      { apply sum3_ext. intros j Hj. f_equal. apply HP; [lia|idx_ok|apply perm_skip, perm_skip, perm_swap]. }
      change (2 * (A x a b + Bt x a b + Bt a x b + Bt b a x) = 2 * (A x b a + Bt x b a + Bt b x a + Bt a b x)).
      rewrite EA, (SB x a b), (SB a x b), (SB b a x) by lia. ring.
  - set (A := fun k l m n => sum3 (fun j => P 0%nat [j] * P 4%nat [j; k; l; m; n])).
    set (Bt := fun k l m n => sum3 (fun j => P 1%nat [j; k] * P 3%nat [j; l; m; n])).
    set (Ct := fun k l m n => sum3 (fun j => P 2%nat [j; k; l] * P 2%nat [j; m; n])).
    assert (SB1 : forall k l m n, (k < 3)%nat -> (l < 3)%nat -> (m < 3)%nat -> (n < 3)%nat ->
      Bt k l m n = Bt k m l n).
    { intros k l m n Hk Hl Hm Hn. apply sum3_ext. intros j Hj. f_equal.
      apply HP; [lia|idx_ok|apply perm_skip, perm_swap]. }
    assert (SB2 : forall k l m n, (k < 3)%nat -> (l < 3)%nat -> (m < 3)%nat -> (n < 3)%nat ->
      Bt k l m n = Bt k l n m).
    { intros k l m n Hk Hl Hm Hn. apply sum3_ext. intros j Hj. f_equal.
      apply HP; [lia|idx_ok|apply perm_skip, perm_skip, perm_swap]. }
    assert (SB3 : forall k l m n, (k < 3)%nat -> (l < 3)%nat -> (m < 3)%nat -> (n < 3)%nat ->
      Bt k l m n = Bt k n m l).
    { intros k l m n Hk Hl Hm Hn. rewrite SB1, SB2, SB1 by assumption. reflexivity. }
    assert (SC1 : forall k l m n, (k < 3)%nat -> (l < 3)%nat -> (m < 3)%nat -> (n < 3)%nat ->
      Ct k l m n = Ct l k m n).
    { intros k l m n Hk Hl Hm Hn. apply sum3_ext. intros j Hj. f_equal.
      apply HP; [lia|idx_ok|apply perm_skip, perm_swap]. }
    assert (SC2 : forall k l m n, (k < 3)%nat -> (l < 3)%nat -> (m < 3)%nat -> (n < 3)%nat ->
      Ct k l m n = Ct k l n m).
    { intros k l m n Hk Hl Hm Hn. apply sum3_ext. intros j Hj. f_equal.
      apply HP; [lia|idx_ok|apply perm_skip, perm_swap]. }
    assert (SC3 : forall k l m n, Ct k l m n = Ct m n k l).
    { intros k l m n. apply sum3_ext. intros j Hj. ring. }
    set (V := fun k l m n => 2 * (A k l m n + Bt k l m n + Bt n l m k + Bt m l k n + Bt l k m n
             + Ct k l m n + Ct k n m l + Ct k m l n)).
    destruct l1 as [|x [|y [|]]]; [| | |cbn in HL; lia].
    + destruct l2 as [|x [|y [|]]]; [cbn in HL; lia|cbn in HL; lia| |cbn in HL; lia]. cbn [app].
      assert (Hx : (x < 3)%nat) by (apply B; cbn; auto). assert (Hy : (y < 3)%nat) by (apply B; cbn; auto).
      change (V a b x y = V b a x y). unfold V.
      assert (EA : A a b x y = A b a x y).
      { apply sum3_ext. intros j Hj. f_equal. apply HP; [lia|idx_ok|apply perm_skip, perm_swap]. }
      rewrite EA, (SB3 y b x a), (SB1 x b a y), (SC1 a b x y), (SC3 a y x b), (SC1 x b a y), (SC2 b x a y), 
       (SC3 a x b y) by lia. rewrite (SC2 b x y a) by lia. rewrite (SC3 b y a x), (SC2 a x b y) by lia. rewrite (SC3 a x y b), (SC1 y b a x), (SC2 b y a x) by lia. ring.
    + destruct l2 as [|y [|]]; [cbn in HL; lia| |cbn in HL; lia]. cbn [app].
      assert (Hx : (x < 3)%nat) by (apply B; cbn; auto). assert (Hy : (y < 3)%nat) by (apply B; cbn; auto).
      change (V x a b y = V x b a y). unfold V.
      assert (EA : A x a b y = A x b a y).
      { apply sum3_ext. intros j Hj. f_equal. apply HP; [lia|idx_ok|apply perm_skip, perm_skip, perm_swap]. }
      rewrite EA, (SB1 x a b y), (SB1 y a b x), (SB1 b a x y), (SB1 a x b y), (SC2 x y b a) by lia. ring.
    + destruct l2 as [|]; [|cbn in HL; lia]. cbn [app].
      assert (Hx : (x < 3)%nat) by (apply B; cbn; auto). assert (Hy : (y < 3)%nat) by (apply B; cbn; auto).
      change (V x y a b = V x y b a). unfold V.
      assert (EA : A x y a b = A x y b a).
      { apply sum3_ext. intros j Hj. f_equal. apply HP; [lia|idx_ok|do 3 apply perm_skip; apply perm_swap]. }
      rewrite EA, (SB2 x y a b), (SB2 b y a x), (SB2 a y x b), (SB2 y x a b), (SC2 x y a b),
        (SC2 x b a y), (SC2 x a y b) by lia. ring.
Qed.
Lemma pseudo_symmetric c s p d : wf s -> (d <= 4)%nat ->
  symmetric d (fun idx => pseudo_entry c s d idx p).
Proof.
  intros W Hd. apply symmetric_swaps. intros l1 a b l2 Hi.
  destruct (pseudo_value c s p d W Hd) as (T0 & T & E0 & E & HT).
  assert (EV : forall idx, pseudo_entry c s d idx p = T idx).
  { intros idx. unfold pseudo_entry. rewrite E0. apply HT. }
  rewrite !EV.
  apply (pseudo_swap d (rf_tensors c s p)); auto.
  intros i idx idx' Hi' HI HP. unfold rf_tensors. f_equal. apply rf_entry_sym; auto. lia.
Qed.
(** ** C10, C11 *)
Lemma total_parts c s p d : wf s -> (d <= 4)%nat ->
  exists dc rf tot, total_potential (Some c) s p d "dc" = Ok dc /\
    total_potential (Some c) s p d "rf" = Ok rf /\
    total_potential (Some c) s p d "tot" = Ok tot /\
    (forall idx, tot idx = dc idx + rf idx) /\
    (forall idx, dc idx = tensor_entry s TDc d idx p) /\
    (forall idx, rf idx = pseudo_entry c s d idx p).
Proof.
  intros W Hd. destruct (pseudo_value c s p d W Hd) as (T & _ & E & _).
  unfold total_potential, dc_tensor, pseudo_entry, tensor_entry. rewrite expanded_one by (auto; lia).
  cbn [bind]. rewrite E. cbn [bind String.eqb Ascii.eqb Bool.eqb].
  eexists; eexists; eexists. repeat (split; [reflexivity|]).
  split; [|reflexivity]. intros idx. unfold tensor_of. now rewrite idx_to_nidx_rowmajor.
Qed.
Lemma total_bad_typ c s p d typ : wf s -> (d <= 4)%nat ->
  typ <> "dc"%string -> typ <> "rf"%string -> typ <> "tot"%string ->
  total_potential (Some c) s p d typ = Raise ValueError.
Proof.
  intros W Hd H1 H2 H3. destruct (pseudo_value c s p d W Hd) as (T & _ & E & _).
  unfold total_potential, dc_tensor. rewrite expanded_one by (auto; lia). cbn [bind].
  rewrite E. cbn [bind]. apply String.eqb_neq in H1, H2, H3. now rewrite H1, H2, H3.
Qed.
Lemma total_no_coeff s p d typ : wf s -> (d <= 5)%nat ->
  total_potential None s p d typ = Raise AttributeError.
Proof.
  intros W Hd. unfold total_potential, dc_tensor. rewrite expanded_one by auto. reflexivity.
Qed.
Lemma electrical_high s xs d t : wf s -> (6 <= d)%nat -> xs <> [] ->
  electrical_potential_expanded s xs d t = Raise IndexError.
Proof.
  intros W Hd Hx. destruct (electrical_spec s xs d t W) as (pot & E & [L F] & _).
  unfold electrical_potential_expanded. rewrite E. cbn [bind].
  destruct pot as [|r pot]; [destruct xs; [congruence|discriminate]|].
  inversion F; subst. cbn [map collect]. rewrite expand_too_high by lia. reflexivity.
Qed.
Lemma collect_raise {A} (l : list (res A)) e pre post :
  l = pre ++ Raise e :: post -> Forall (fun x => exists a, x = Ok a) pre -> collect l = Raise e.
Proof.
  intros -> H. induction H as [|x pre [a ->] H IH]; [reflexivity|].
  cbn [app collect bind]. now rewrite IH.
Qed.
Lemma pseudo_high c s p d : wf s -> (5 <= d)%nat ->
  pseudo_potential (Some c) s p d = Raise IndexError.
Proof.
  intros W Hd. unfold pseudo_potential.
  rewrite (collect_raise _ IndexError (map (rf_tensor s p) (seq 1 5)) (map (rf_tensor s p) (seq 7 (d - 5)))).
  - reflexivity.
  - replace (d + 1)%nat with (5 + (1 + (d - 5)))%nat by lia. rewrite seq_app, map_app.
    f_equal. rewrite seq_app, map_app. cbn [seq map app Nat.add]. f_equal.
    unfold rf_tensor. rewrite electrical_high; auto; discriminate.
  - apply Forall_forall. intros x Hx. apply in_map_iff in Hx. destruct Hx as (n & <- & Hn).
    apply in_seq in Hn. destruct (rf_tensor_ok s p n W ltac:(lia)) as (r & E & _). eauto.
Qed.
Lemma unit_high g d i p : match g with EOther _ => False | _ => True end -> (6 <= d)%nat ->
  unit_term g d i p = 0.
Proof.
  intros Hg Hd. do 6 (destruct d as [|d]; [lia|]).
  destruct g; cbn [unit_term]; try tauto.
  - apply sum_zero. intros va _. rewrite sum_zero; [ring|]. intros k _. unfold pixel_term. now destruct i.
  - apply sum_zero. intros path _. apply sum_zero. intros k _. apply sum_zero. intros e _.
    unfold edge_term. now destruct i.
  - apply sum_zero. intros e _. rewrite sum_zero; [ring|]. intros k _. unfold edge_term. now destruct i.
Qed.
Lemma electrical_high_zero s xs d t : wf s ->
  (forall e, In e s -> match egeom e with EOther _ => False | _ => True end) -> (6 <= d)%nat ->
  electrical_potential s xs d t = Ok (zeros d (length xs)).
Proof.
  intros W HO Hd. destruct (electrical_spec s xs d t W) as (pot & E & S & C).
  rewrite E. f_equal. apply (rows_ext d (length xs)); auto using zeros_shaped.
  intros j i Hj Hi. rewrite C, zeros_cell by exact Hj. apply sum_zero.
  intros e He. rewrite (unit_high _ d i _ (HO e He) Hd). ring.
Qed.

(** ** Laplace's equation *)
Lemma move_move k t u p : move k t (move k u p) = move k (u + t) p.
Proof. destruct k as [|[|k]]; unfold move; cbn [px py pz]; f_equal; ring. Qed.
Lemma move_zero k p : move k 0 p = p.
Proof. destruct p as [x y z]. destruct k as [|[|k]]; unfold move; cbn [px py pz]; f_equal; ring. Qed.
Lemma partial_line f k p t l : partial f k (move k t p) l ->
  is_derive (fun u => f (move k u p)) t l.
Proof.
  unfold partial. intros H.
  assert (H' : is_derive (fun u => u - t) t 1) by (auto_derive; auto; ring).
  eapply is_derive_ext; [|eapply is_derive_eq; [apply (is_derive_comp (fun u => f (move k u (move k t p))) (fun u => u - t) t l 1); [|exact H']|]].
  - intros u. cbn beta. rewrite move_move. f_equal. f_equal. ring.
  - replace (t - t) with 0 by ring. exact H.
  - unfold scal; cbn; unfold mult; cbn. ring.
Qed.
Lemma locally_forall_in {A} (l : list A) (P : A -> R -> Prop) :
  (forall a, In a l -> locally 0 (P a)) -> locally 0 (fun t => forall a, In a l -> P a t).
Proof.
  induction l as [|a l IH]; intros H.
  - apply filter_forall. now intros t b [].
  - assert (H1 := H a (or_introl eq_refl)).
    assert (H2 := IH (fun b Hb => H b (or_intror Hb))).
    generalize (filter_and _ _ H1 H2). apply filter_imp.
    intros t [Ha Hl] b [<-|Hb]; auto.
Qed.
Lemma locally_pos (f : R -> R) : ex_derive f 0 -> 0 < f 0 -> locally 0 (fun t => 0 < f t).
Proof.
  intros D H. apply (ex_derive_continuous (V := R_NormedModule)) in D.
  apply D. apply (open_gt 0 (f 0) H).
Qed.
Lemma dist_off_pos p v : 0 < (px p - fst v) ^ 2 + (py p - snd v) ^ 2 + pz p ^ 2 -> 0 < dist p v.
Proof. intros H. now apply sqrt_lt_R0. Qed.
Lemma off_open g k p : off_electrode g p -> locally 0 (fun t => off_electrode g (move k t p)).
Proof.
  destruct g as [pixels n h|paths n h|pts edges pots n h|h|u]; cbn [off_electrode]; intros H.
  - assert (L : locally 0 (fun t => forall vk, In vk (list_prod pixels (images n)) ->
        0 < dist (image h (snd vk) (move k t p)) (fst (fst vk)))).
    { apply locally_forall_in. intros [[v a] j] Hin. apply in_prod_iff in Hin. destruct Hin as [H1 H2].
      cbn [fst snd]. specialize (H v a j H1 H2). apply dist_pos_sq in H.
      eapply filter_imp.
      - intros t Ht. apply dist_off_pos. exact Ht.
      - apply locally_pos; [|cbn beta; now rewrite move_zero].
        destruct k as [|[|k]]; unfold move, image; cbn [px py pz]; auto_derive; auto. }
    eapply filter_imp; [|exact L]. intros t Ht v a j H1 H2.
    apply (Ht ((v, a), j)). apply in_prod_iff. auto.
  - apply (locally_forall_in (images n) (fun j t => pz (image h j (move k t p)) <> 0)).
    intros j Hj. specialize (H j Hj).
    eapply (filter_imp (fun t => 0 < pz (image h j (move k t p)) ^ 2)).
    + intros t Ht E. rewrite E in Ht. lra.
    + apply locally_pos; [destruct k as [|[|k]]; unfold move, image; cbn [px py pz]; auto_derive; auto|].
      rewrite move_zero. apply pow2_gt_0. exact H.
  - apply (locally_forall_in (images n) (fun j t => pz (image h j (move k t p)) <> 0)).
    intros j Hj. specialize (H j Hj).
    eapply (filter_imp (fun t => 0 < pz (image h j (move k t p)) ^ 2)).
    + intros t Ht E. rewrite E in Ht. lra.
    + apply locally_pos; [destruct k as [|[|k]]; unfold move, image; cbn [px py pz]; auto_derive; auto|].
      rewrite move_zero. apply pow2_gt_0. exact H.
  - now apply filter_forall.
  - now apply filter_forall.
Qed.
Lemma second_of (f g : p3 -> R) k p l (U : p3 -> Prop) :
  (forall q, U q -> partial f k q (g q)) -> locally 0 (fun t => U (move k t p)) ->
  partial g k p l -> second_partial f k p l.
Proof.
  intros H L Hg. exists (fun t => g (move k t p)). split; [|exact Hg].
  eapply filter_imp; [|exact L]. intros t Ht. apply partial_line. now apply H.
Qed.
(** for systems whose derivative entries are right wherever [U] holds *)
Lemma harmonic_entry s t n p idx (U : p3 -> Prop) : wf s -> (n <= 3)%nat -> idx_of_order n idx ->
  (forall k, locally 0 (fun u => U (move k u p))) -> U p ->
  (forall q m, U q -> (m <= 4)%nat -> forall e, In e s -> RD (unit_term (egeom e)) m q) ->
  harmonic_at (tensor_entry s t n idx) p.
Proof.
  intros W Hn Hi HL Hp HR.
  assert (X : forall k, (k < 3)%nat ->
    second_partial (tensor_entry s t n idx) k p (tensor_entry s t (S (S n)) (k :: k :: idx) p)).
  { intros k Hk. apply (second_of _ (tensor_entry s t (S n) (k :: idx)) _ _ _ U); [|apply HL|].
    - intros q Hq. apply system_derivatives; auto.
    - apply system_derivatives; auto; try lia.
      + intros e He. apply HR; auto; lia.
      + destruct Hi; split; [cbn [length]; lia|now constructor]. }
  exists (tensor_entry s t (S (S n)) (0 :: 0 :: idx)%nat p), (tensor_entry s t (S (S n)) (1 :: 1 :: idx)%nat p),
    (tensor_entry s t (S (S n)) (2 :: 2 :: idx)%nat p).
  repeat (split; [apply X; lia|]).
  destruct Hi as [Hl Ha].
  assert (O : forall k, (k < 3)%nat -> idx_of_order (S (S n)) (k :: k :: idx)).
  { intros k Hk. split; [cbn [length]; lia|apply Forall_cons, Forall_cons; assumption]. }
  rewrite !tensor_entry_eq by (auto; lia).
  apply (expanded_traceless (S (S n)) (tab (2 * S (S n) + 1) (fun i => sys_term s t (S (S n)) i p))
     ltac:(lia) (tab_length _ _) [] [] idx); try constructor; auto. cbn [length]. lia.
Qed.
