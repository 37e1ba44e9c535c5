From Coq Require Import Permutation Sorted Ascii.
From Verif Require Import Base ModelUtils SpecTensor.
Open Scope nat_scope.

(** ** sorting *)
Lemma insert_perm a l : Permutation (a :: l) (insert a l).
Proof.
  induction l as [|b r IH]; cbn [insert]; [reflexivity|].
  destruct (a <=? b); [reflexivity|].
  rewrite perm_swap. now constructor.
Qed.
Lemma sorted_perm l : Permutation l (sorted l).
Proof.
  induction l as [|a r IH]; cbn [sorted]; [reflexivity|].
  rewrite <- insert_perm. now constructor.
Qed.
Lemma insert_sorted a l : StronglySorted le l -> StronglySorted le (insert a l).
Proof.
  induction l as [|b r IH]; cbn [insert]; intros H; [repeat constructor|].
  inversion H as [|? ? Hr Hb]; subst.
  destruct (Nat.leb_spec a b).
  - constructor; [assumption|]. constructor; [assumption|].
    eapply Forall_impl; [|exact Hb]. cbn; lia.
  - constructor; [auto|].
    rewrite <- (insert_perm a r). constructor; [lia|assumption].
Qed.
Lemma sorted_sorted l : StronglySorted le (sorted l).
Proof. induction l; cbn [sorted]; [constructor|now apply insert_sorted]. Qed.

Lemma sorted_unique l l' : StronglySorted le l -> StronglySorted le l' ->
  Permutation l l' -> l = l'.
Proof.
  revert l'. induction l as [|a r IH]; intros l' H1 H2 HP.
  - now apply Permutation_nil in HP.
  - destruct l' as [|b r']; [now apply Permutation_sym, Permutation_nil in HP|].
    inversion H1 as [|? ? Hr Ha]; inversion H2 as [|? ? Hr' Hb]; subst.
    assert (a = b).
    { rewrite Forall_forall in Ha, Hb.
      assert (A1 : In a (b :: r')) by (apply (Permutation_in _ HP); now left).
      assert (A2 : In b (a :: r)) by (apply (Permutation_in _ (Permutation_sym HP)); now left).
      destruct A1 as [->|A1]; [reflexivity|]. destruct A2 as [->|A2]; [reflexivity|].
      specialize (Ha _ A2). specialize (Hb _ A1). lia. }
    subst b. f_equal. apply IH; auto. now apply Permutation_cons_inv in HP.
Qed.
Lemma sorted_eq l l' : Permutation l l' -> sorted l = sorted l'.
Proof.
  intros H. apply sorted_unique; try apply sorted_sorted.
  now rewrite <- !sorted_perm.
Qed.
Lemma sorted_idem l : sorted (sorted l) = sorted l.
Proof. apply sorted_eq. symmetry. apply sorted_perm. Qed.

Lemma axes_ok_perm i j : axes_ok i -> Permutation i j -> axes_ok j.
Proof. intros H HP. unfold axes_ok. now rewrite <- HP. Qed.
Lemma order_perm n i j : idx_of_order n i -> Permutation i j -> idx_of_order n j.
Proof.
  intros [H1 H2] HP. split; [|eapply axes_ok_perm; eauto].
  now rewrite <- (Permutation_length HP).
Qed.

(** ** count / remove *)
Lemma count_perm a l l' : Permutation l l' -> count a l = count a l'.
Proof. induction 1; cbn [count]; lia. Qed.
Lemma count_occ_count a l : count a l = count_occ Nat.eq_dec l a.
Proof.
  induction l as [|b r IH]; cbn [count count_occ]; [reflexivity|].
  destruct (Nat.eq_dec b a) as [->|H].
  - rewrite Nat.eqb_refl. lia.
  - apply Nat.eqb_neq in H. rewrite H. lia.
Qed.
Lemma remove1_perm a l : 1 <= count a l -> Permutation l (a :: remove1 a l).
Proof.
  induction l as [|b r IH]; cbn [count remove1]; intros H; [lia|].
  destruct (Nat.eqb_spec b a) as [->|Hb]; [reflexivity|].
  rewrite perm_swap. constructor. apply IH. lia.
Qed.
Lemma remove1_count a l : 1 <= count a l -> count a (remove1 a l) = count a l - 1.
Proof.
  intros H. apply remove1_perm in H.
  rewrite (count_perm a _ _ H) at 1. cbn [count]. rewrite Nat.eqb_refl. lia.
Qed.
Lemma remove2_perm i l : 2 <= count i l ->
  Permutation l (i :: i :: remove1 i (remove1 i l)).
Proof.
  intros H. rewrite (remove1_perm i l) at 1 by lia. constructor.
  apply remove1_perm. rewrite remove1_count; lia.
Qed.

(** ** C15 find_laplace *)
Definition others (i : nat) : nat * nat :=
  match i with 0 => (1, 2) | 1 => (0, 2) | _ => (0, 1) end.

Lemma find_laplace_in c a b : In (a, b) (find_laplace c) <->
  exists i, i < 3 /\ 2 <= count i c /\
    let keep := remove1 i (remove1 i (sorted c)) in
    a = sorted (keep ++ [fst (others i); fst (others i)]) /\
    b = sorted (keep ++ [snd (others i); snd (others i)]).
Proof.
  unfold find_laplace. rewrite in_flat_map. split.
  - intros (i & Hi & H). apply in_seq in Hi. exists i. split; [lia|].
    destruct (Nat.leb_spec 2 (count i (sorted c))) as [Hc|Hc]; [|destruct H].
    rewrite <- (count_perm i c (sorted c) (sorted_perm c)) in Hc. split; [exact Hc|].
    destruct i as [|[|[|i]]]; [| | |lia]; cbn -[sorted remove1] in H;
      destruct H as [H|[]]; cbn [others fst snd];
      injection H as <- <-; split; reflexivity.
  - intros (i & Hi & Hc & Ha & Hb). exists i. split; [apply in_seq; lia|].
    rewrite (count_perm i c (sorted c) (sorted_perm c)) in Hc.
    apply Nat.leb_le in Hc. rewrite Hc.
    destruct i as [|[|[|i]]]; [| | |lia]; cbn -[sorted remove1];
      left; cbn [others fst snd] in Ha, Hb; now rewrite Ha, Hb.
Qed.

Lemma find_laplace_perm c a b : axes_ok c -> In (a, b) (find_laplace c) ->
  exists i keep, i < 3 /\ axes_ok keep /\
    Permutation c (i :: i :: keep) /\
    Permutation a (fst (others i) :: fst (others i) :: keep) /\
    Permutation b (snd (others i) :: snd (others i) :: keep).
Proof.
  intros Hax H. apply find_laplace_in in H. destruct H as (i & Hi & Hc & -> & ->).
  exists i, (remove1 i (remove1 i (sorted c))).
  assert (HP : Permutation c (i :: i :: remove1 i (remove1 i (sorted c)))).
  { rewrite (sorted_perm c) at 1. apply remove2_perm.
    now rewrite <- (count_perm i _ _ (sorted_perm c)). }
  split; [exact Hi|]. split.
  { apply (axes_ok_perm _ _ Hax) in HP. inversion HP; subst. now inversion H2. }
  split; [exact HP|]. split.
  - rewrite <- sorted_perm. rewrite Permutation_app_comm. reflexivity.
  - rewrite <- sorted_perm. rewrite Permutation_app_comm. reflexivity.
Qed.

Lemma axes_cons a l : a < 3 -> axes_ok l -> axes_ok (a :: l).
Proof. now constructor. Qed.
Lemma others_lt i : fst (others i) < 3 /\ snd (others i) < 3.
Proof. destruct i as [|[|i]]; cbn; lia. Qed.

Lemma find_laplace_sum n (T : tens) c a b :
  symmetric n T -> traceless n T -> idx_of_order n c ->
  In (a, b) (find_laplace c) ->
  idx_of_order n a /\ idx_of_order n b /\ (T a + T b + T c = 0)%R.
Proof.
  intros Hs Ht [Hl Hax] Hin.
  destruct (find_laplace_perm c a b Hax Hin) as (i & keep & Hi & Hk & Pc & Pa & Pb).
  pose proof (others_lt i) as [O1 O2].
  assert (Hlk : length keep + 2 = n).
  { apply Permutation_length in Pc. cbn in Pc. lia. }
  assert (Oa : idx_of_order n (fst (others i) :: fst (others i) :: keep)).
  { split; [cbn; lia|]. now repeat apply axes_cons. }
  assert (Ob : idx_of_order n (snd (others i) :: snd (others i) :: keep)).
  { split; [cbn; lia|]. now repeat apply axes_cons. }
  split; [eapply order_perm; [exact Oa|now symmetry]|].
  split; [eapply order_perm; [exact Ob|now symmetry]|].
  rewrite <- (Hs _ _ Oa (Permutation_sym Pa)).
  rewrite <- (Hs _ _ Ob (Permutation_sym Pb)).
  rewrite (Hs c (i :: i :: keep)); [|split; auto|exact Pc].
  pose proof (Ht [] [] keep) as H. cbn [app length] in H.
  specialize (H (Forall_nil _) (Forall_nil _) Hk ltac:(lia)).
  destruct i as [|[|[|i]]]; [| | |lia]; cbn [others fst snd]; lra.
Qed.

Lemma find_laplace_length c :
  length (find_laplace c) =
  length (filter (fun i => 2 <=? count_occ Nat.eq_dec c i) [0; 1; 2]).
Proof.
  unfold find_laplace. cbn [seq flat_map filter].
  rewrite <- !(count_perm _ _ _ (sorted_perm c)), !count_occ_count.
  destruct (2 <=? count_occ Nat.eq_dec c 0),
    (2 <=? count_occ Nat.eq_dec c 1), (2 <=? count_occ Nat.eq_dec c 2); reflexivity.
Qed.

Lemma find_laplace_complete c i : axes_ok c -> i < 3 ->
  2 <= count_occ Nat.eq_dec c i ->
  exists a b keep, In (a, b) (find_laplace c) /\
    Permutation c (i :: i :: keep) /\
    Permutation a (fst (others i) :: fst (others i) :: keep) /\
    Permutation b (snd (others i) :: snd (others i) :: keep).
Proof.
  intros Hax Hi Hc. rewrite <- count_occ_count in Hc.
  set (keep := remove1 i (remove1 i (sorted c))).
  exists (sorted (keep ++ [fst (others i); fst (others i)])),
         (sorted (keep ++ [snd (others i); snd (others i)])), keep.
  split; [apply find_laplace_in; exists i; auto|]. split.
  - rewrite (sorted_perm c) at 1. apply remove2_perm.
    now rewrite <- (count_perm i _ _ (sorted_perm c)).
  - split; (rewrite <- sorted_perm; rewrite Permutation_app_comm; reflexivity).
Qed.

(** ** C14 names and positions *)
Lemma letter_axis a c : letter_of a = Ok c -> axis_of c = Ok a /\ a < 3.
Proof.
  destruct a as [|[|[|a]]]; cbn; intros H; try discriminate;
    injection H as <-; split; auto; lia.
Qed.
Lemma axis_letter a c : axis_of c = Ok a -> letter_of a = Ok c /\ a < 3.
Proof.
  unfold axis_of. intros H.
  destruct (Ascii.eqb_spec c "x"%char); [injection H as <-; subst; cbn; split; auto; lia|].
  destruct (Ascii.eqb_spec c "y"%char); [injection H as <-; subst; cbn; split; auto; lia|].
  destruct (Ascii.eqb_spec c "z"%char); [injection H as <-; subst; cbn; split; auto; lia|].
  discriminate.
Qed.
Lemma letter_ok a : a < 3 -> exists c, letter_of a = Ok c.
Proof. destruct a as [|[|[|a]]]; cbn; eauto; lia. Qed.

Lemma name_to_idx_axes n : forall idx, name_to_idx n = Ok idx ->
  axes_ok idx /\ length idx = String.length n.
Proof.
  induction n as [|c n IH]; cbn [name_to_idx]; intros idx H.
  - injection H as <-. split; [constructor|reflexivity].
  - destruct (axis_of c) as [a|] eqn:Ea; cbn [bind] in H; [|discriminate].
    destruct (name_to_idx n) as [l|] eqn:El; cbn [bind] in H; [|discriminate].
    injection H as <-. destruct (IH l eq_refl) as [I1 I2].
    apply axis_letter in Ea. split; [now constructor|]. cbn. now rewrite I2.
Qed.

Lemma join_name_to_idx l : forall s, join_letters l = Ok s -> name_to_idx s = Ok l.
Proof.
  induction l as [|a l IH]; cbn [join_letters]; intros s H.
  - now injection H as <-.
  - destruct (letter_of a) as [c|] eqn:Ec; cbn [bind] in H; [|discriminate].
    destruct (join_letters l) as [r|] eqn:Er; cbn [bind] in H; [|discriminate].
    injection H as <-. cbn [name_to_idx].
    destruct (letter_axis a c Ec) as [-> _]. cbn [bind].
    now rewrite (IH r eq_refl).
Qed.
Lemma name_to_idx_join s : forall l, name_to_idx s = Ok l -> join_letters l = Ok s.
Proof.
  induction s as [|c s IH]; cbn [name_to_idx]; intros l H.
  - now injection H as <-.
  - destruct (axis_of c) as [a|] eqn:Ea; cbn [bind] in H; [|discriminate].
    destruct (name_to_idx s) as [r|] eqn:Er; cbn [bind] in H; [|discriminate].
    injection H as <-. cbn [join_letters].
    destruct (axis_letter a c Ea) as [-> _]. cbn [bind].
    now rewrite (IH r eq_refl).
Qed.
Lemma join_ok l : axes_ok l -> exists s, join_letters l = Ok s.
Proof.
  induction 1 as [|a l Ha Hl [s IH]]; cbn [join_letters]; [eauto|].
  destruct (letter_ok a Ha) as [c ->]. cbn [bind]. rewrite IH. cbn [bind]. eauto.
Qed.

Lemma name_of_idx_of_name idx : axes_ok idx ->
  exists s, idx_to_name idx = Ok s /\ name_to_idx s = Ok (sorted idx).
Proof.
  intros H. destruct (join_ok (sorted idx)) as [s Hs].
  - eapply axes_ok_perm; [exact H|apply sorted_perm].
  - exists s. split; [exact Hs|now apply join_name_to_idx].
Qed.

(** same multiset of axes <-> same name *)
Lemma idx_to_name_eq i j : axes_ok i -> axes_ok j ->
  (idx_to_name i = idx_to_name j <-> Permutation i j).
Proof.
  intros Hi Hj. split.
  - intros H. destruct (name_of_idx_of_name i Hi) as (s & E1 & E2).
    destruct (name_of_idx_of_name j Hj) as (s' & E3 & E4).
    assert (s = s') by congruence. subst s'.
    rewrite (sorted_perm i), (sorted_perm j). rewrite E2 in E4.
    injection E4 as ->. reflexivity.
  - intros H. unfold idx_to_name. now rewrite (sorted_eq _ _ H).
Qed.

Lemma fold_add_acc l : forall a, fold_left Nat.add l a = a + fold_left Nat.add l 0.
Proof.
  induction l as [|b l IH]; cbn [fold_left]; intros a; [lia|].
  rewrite (IH (a + b)), (IH (0 + b)). lia.
Qed.
Lemma rowmajor_acc l : forall p,
  fold_left (fun p a => 3 * p + a) l p = 3 ^ length l * p + rowmajor l.
Proof.
  unfold rowmajor. induction l as [|a l IH]; intros p; cbn [fold_left length].
  - cbn. lia.
  - rewrite IH. rewrite (IH (3 * 0 + a)). cbn [Nat.pow]. lia.
Qed.
Lemma rowmajor_cons a l : rowmajor (a :: l) = a * 3 ^ length l + rowmajor l.
Proof. unfold rowmajor at 1. cbn [fold_left]. rewrite rowmajor_acc. lia. Qed.

Lemma idx_to_nidx_rowmajor idx : idx_to_nidx idx = rowmajor idx.
Proof.
  unfold idx_to_nidx.
  enough (G : forall l k N, N = k + length l ->
    fold_left Nat.add (map (fun ij => snd ij * 3 ^ (N - fst ij - 1))
       (combine (seq k (length l)) l)) 0 = rowmajor l) by (now apply (G idx 0)).
  induction l as [|a l IH]; intros k N HN; cbn [length seq combine map fold_left].
  - reflexivity.
  - rewrite fold_add_acc. cbn [length] in HN. rewrite (IH (S k) N) by lia.
    rewrite rowmajor_cons. cbn [fst snd].
    replace (N - k - 1) with (length l) by lia. lia.
Qed.
Lemma rowmajor_lt idx : axes_ok idx -> rowmajor idx < 3 ^ length idx.
Proof.
  induction 1 as [|a l Ha Hl IH]; [cbn; lia|].
  rewrite rowmajor_cons. cbn [length Nat.pow]. nia.
Qed.
Lemma rowmajor_inj i : forall j, axes_ok i -> axes_ok j -> length i = length j ->
  rowmajor i = rowmajor j -> i = j.
Proof.
  induction i as [|a i IH]; intros [|b j] Hi Hj Hl H; try discriminate; [reflexivity|].
  inversion Hi; inversion Hj; subst. injection Hl as Hl.
  rewrite !rowmajor_cons in H. rewrite <- Hl in H.
  pose proof (rowmajor_lt i H3) as L1. pose proof (rowmajor_lt j H7) as L2.
  rewrite <- Hl in L2.
  assert (a = b) by nia. subst b. f_equal. apply IH; auto. lia.
Qed.

Lemma product3_length n : length (product3 n) = 3 ^ n.
Proof.
  induction n as [|n IH]; [reflexivity|].
  cbn [product3 flat_map Nat.pow]. rewrite !app_length, !map_length, IH. cbn; lia.
Qed.
Lemma product3_nth idx : axes_ok idx ->
  nth_error (product3 (length idx)) (rowmajor idx) = Some idx.
Proof.
  induction 1 as [|a l Ha Hl IH]; [reflexivity|].
  rewrite rowmajor_cons. cbn [length product3 flat_map]. rewrite app_nil_r.
  pose proof (rowmajor_lt l Hl) as L. pose proof (product3_length (length l)) as PL.
  set (P := product3 (length l)) in *.
  assert (M : forall b, nth_error (map (cons b) P) (rowmajor l) = Some (b :: l))
    by (intros b; now rewrite nth_error_map, IH).
  destruct a as [|[|[|a]]]; [| | |lia].
  - rewrite nth_error_app1; [|rewrite map_length; lia].
    cbn [Nat.mul]. apply M.
  - rewrite nth_error_app2; [|rewrite map_length; lia].
    rewrite map_length, PL. rewrite nth_error_app1; [|rewrite map_length; lia].
    replace (1 * 3 ^ length l + rowmajor l - 3 ^ length l) with (rowmajor l) by lia.
    apply M.
  - rewrite nth_error_app2; [|rewrite map_length; lia].
    rewrite map_length, PL. rewrite nth_error_app2; [|rewrite map_length; lia].
    rewrite map_length, PL.
    replace (2 * 3 ^ length l + rowmajor l - 3 ^ length l - 3 ^ length l)
      with (rowmajor l) by lia.
    apply M.
Qed.
Lemma product3_in n idx : In idx (product3 n) <-> idx_of_order n idx.
Proof.
  revert idx. induction n as [|n IH]; intros idx.
  - cbn. split.
    + intros [<-|[]]. split; [reflexivity|constructor].
    + intros [H _]. destruct idx; [now left|discriminate].
  - cbn [product3]. rewrite in_flat_map. split.
    + intros (a & Ha & H). apply in_map_iff in H. destruct H as (l & <- & Hl).
      apply IH in Hl. destruct Hl as [H1 H2]. split; [cbn; lia|].
      constructor; [|exact H2]. cbn in Ha. lia.
    + intros [H1 H2]. destruct idx as [|a l]; [discriminate|].
      inversion H2; subst. exists a. split; [cbn; lia|].
      apply in_map. apply IH. split; [cbn in H1; lia|auto].
Qed.

(** ** the maps, order by order *)
Definition names_of (n : nat) : list string := nth n derivative_names [].
Definition entry (n : nat) (idx : list nat) : ent :=
  hd (Sel 0) (expand_entry (names_of n) idx).
Definition name_idx (s : string) : list nat :=
  match name_to_idx s with Ok l => l | Raise _ => [] end.

Definition orders := seq 0 6.
Definition ent_lt (m : nat) (e : ent) : bool :=
  match e with Sel i => i <? m | Lap a b => (a <? m) && (b <? m) end.

Lemma entries_single :
  forallb (fun n => forallb (fun idx =>
    (length (expand_entry (names_of n) idx) =? 1) &&
    ent_lt (2 * n + 1) (entry n idx)) (product3 n)) orders = true.
Proof. vm_compute. reflexivity. Qed.
Lemma names_length :
  forallb (fun n => length (names_of n) =? 2 * n + 1) orders = true.
Proof. vm_compute. reflexivity. Qed.

Lemma in_orders n : n <= 5 <-> In n orders.
Proof. unfold orders. rewrite in_seq. lia. Qed.

Lemma entry_single n idx : n <= 5 -> idx_of_order n idx ->
  expand_entry (names_of n) idx = [entry n idx] /\
  ent_lt (2 * n + 1) (entry n idx) = true.
Proof.
  intros Hn Hi. pose proof entries_single as H.
  rewrite forallb_forall in H. specialize (H n (proj1 (in_orders n) Hn)).
  rewrite forallb_forall in H. specialize (H idx (proj2 (product3_in n idx) Hi)).
  apply andb_prop in H. destruct H as [H1 H2]. split; [|exact H2].
  apply Nat.eqb_eq in H1. unfold entry.
  destruct (expand_entry (names_of n) idx) as [|e [|e' r]]; try discriminate. reflexivity.
Qed.

Lemma flat_map_single {A B} (f : A -> list B) (g : A -> B) l :
  (forall a, In a l -> f a = [g a]) -> flat_map f l = map g l.
Proof.
  induction l as [|a l IH]; intros H; cbn [flat_map map]; [reflexivity|].
  rewrite H by now left. cbn. f_equal. apply IH. intros b Hb. apply H. now right.
Qed.

Lemma expand_map_nth n : n <= 5 ->
  nth_error expand_map n = Some (map (entry n) (product3 n)).
Proof.
  intros Hn.
  assert (E : nth_error expand_map n = Some (flat_map (expand_entry (names_of n)) (product3 n))).
  { do 6 (destruct n as [|n]; [reflexivity|]). lia. }
  rewrite E. f_equal. apply flat_map_single. intros a Ha.
  apply entry_single; [exact Hn|now apply product3_in].
Qed.
Lemma expand_map_none n : 5 < n -> nth_error expand_map n = None.
Proof. intros H. apply nth_error_None. cbn. lia. Qed.

(** value of an entry *)
Open Scope R_scope.
Definition ent_val (c : list R) (e : ent) : R :=
  match e with Sel i => nth i c 0 | Lap a b => - nth a c 0 - nth b c 0 end.
Lemma ent_value_ok c e : ent_lt (length c) e = true -> ent_value c e = Ok (ent_val c e).
Proof.
  destruct e as [i|a b]; cbn [ent_lt ent_value ent_val].
  - intros H. apply Nat.ltb_lt in H. now rewrite (nth_error_nth' c 0 H).
  - intros H. apply andb_prop in H. destruct H as [H1 H2].
    apply Nat.ltb_lt in H1, H2.
    now rewrite (nth_error_nth' c 0 H1), (nth_error_nth' c 0 H2).
Qed.
Lemma collect_ok {A B} (f : A -> res B) (g : A -> B) l :
  (forall a, In a l -> f a = Ok (g a)) -> collect (map f l) = Ok (map g l).
Proof.
  induction l as [|a l IH]; intros H; cbn [map collect]; [reflexivity|].
  rewrite H by now left. cbn [bind]. rewrite IH; [reflexivity|].
  intros b Hb. apply H. now right.
Qed.

(** the tensor expand_tensor computes *)
Definition expanded (n : nat) (c : list R) : tens := fun idx => ent_val c (entry n idx).

Lemma expand_tensor_ok n c : (n <= 5)%nat -> length c = (2 * n + 1)%nat ->
  expand_tensor c = Ok (map (expanded n c) (product3 n)).
Proof.
  intros Hn Hl. unfold expand_tensor. rewrite Hl.
  replace (2 * n + 1)%nat with (S (n * 2))%nat by lia.
  rewrite Nat.div_mul by lia.
  destruct n as [|[|n]].
  - destruct c as [|x c]; [discriminate|]. reflexivity.
  - destruct c as [|x [|y [|z [|]]]]; try discriminate. reflexivity.
  - rewrite expand_map_nth by exact Hn. rewrite map_map.
    apply collect_ok. intros idx Hi. apply product3_in in Hi.
    rewrite ent_value_ok; [reflexivity|].
    rewrite Hl. apply entry_single; [exact Hn|exact Hi].
Qed.

Lemma expand_holds n c : (n <= 5)%nat -> length c = (2 * n + 1)%nat ->
  holds n (map (expanded n c) (product3 n)) (expanded n c).
Proof.
  intros Hn Hl. split; [now rewrite map_length, product3_length|].
  intros idx [H1 H2]. subst n. now rewrite nth_error_map, product3_nth.
Qed.

Lemma entry_perm n i j : Permutation i j -> entry n i = entry n j.
Proof.
  intros H. unfold entry, expand_entry, idx_to_name, find_laplace.
  now rewrite (sorted_eq _ _ H).
Qed.
Lemma expanded_sym n c : symmetric n (expanded n c).
Proof. intros i j _ H. unfold expanded. now rewrite (entry_perm n i j H). Qed.

(** linear form of an entry *)
Definition unit_vec (m i : nat) : list Z :=
  map (fun k => if Nat.eqb k i then 1%Z else 0%Z) (seq 0 m).
Definition zadd := map2 Z.add.
Definition zneg := map Z.opp.
Definition coefs (m : nat) (e : ent) : list Z :=
  match e with
  | Sel i => unit_vec m i
  | Lap a b => zadd (zneg (unit_vec m a)) (zneg (unit_vec m b))
  end.
Fixpoint zdot (z : list Z) (c : list R) : R :=
  match z, c with
  | k :: z', x :: c' => IZR k * x + zdot z' c'
  | _, _ => 0
  end.
Lemma zdot_add a : forall b c, length a = length b ->
  zdot (zadd a b) c = zdot a c + zdot b c.
Proof.
  induction a as [|x a IH]; intros [|y b] [|u c] H; try discriminate; try (cbn; lra).
  change (zadd (x :: a) (y :: b)) with ((x + y)%Z :: zadd a b). cbn [zdot].
  rewrite plus_IZR. injection H as H. rewrite (IH b c H). lra.
Qed.
Lemma zdot_neg a : forall c, zdot (zneg a) c = - zdot a c.
Proof.
  induction a as [|x a IH]; intros [|u c]; cbn; try lra.
  rewrite opp_IZR, IH. lra.
Qed.
Lemma zdot_unit i : forall c k,
  zdot (map (fun j => if Nat.eqb j (k + i) then 1%Z else 0%Z) (seq k (length c))) c
  = nth i c 0.
Proof.
  induction i as [|i IH]; intros [|x c] k; cbn [length seq map zdot nth]; try reflexivity.
  - rewrite Nat.add_0_r, Nat.eqb_refl.
    assert (Z0 : forall m c', (k < m)%nat ->
      zdot (map (fun j => if Nat.eqb j k then 1%Z else 0%Z) (seq m (length c'))) c' = 0).
    { intros m c'. revert m. induction c' as [|y c' IHc]; intros m Hm; cbn; [reflexivity|].
      destruct (Nat.eqb_spec m k); [lia|]. rewrite IHc by lia. lra. }
    rewrite Z0 by lia. lra.
  - destruct (Nat.eqb_spec k (k + S i)); [lia|].
    replace (k + S i)%nat with (S k + i)%nat by lia. rewrite IH. lra.
Qed.
Lemma zdot_coefs c e : zdot (coefs (length c) e) c = ent_val c e.
Proof.
  destruct e as [i|a b]; cbn [coefs ent_val]; unfold unit_vec.
  - exact (zdot_unit i c 0).
  - rewrite zdot_add by (unfold zneg; now rewrite !map_length). rewrite !zdot_neg.
    pose proof (zdot_unit a c 0) as Ua. pose proof (zdot_unit b c 0) as Ub.
    cbn [Nat.add] in Ua, Ub. rewrite Ua, Ub. lra.
Qed.
Lemma zadd_length a b : length a = length b -> length (zadd a b) = length a.
Proof.
  revert b. induction a as [|x a IH]; intros [|y b] H; try discriminate; [reflexivity|].
  change (zadd (x :: a) (y :: b)) with ((x + y)%Z :: zadd a b). cbn [length].
  f_equal. apply IH. now injection H.
Qed.
Lemma coefs_length m e : length (coefs m e) = m.
Proof.
  destruct e as [i|a b]; cbn [coefs]; unfold unit_vec, zneg.
  - now rewrite map_length, seq_length.
  - rewrite zadd_length; now rewrite !map_length, ?seq_length.
Qed.
Lemma zdot_zero z c : forallb (Z.eqb 0) z = true -> zdot z c = 0.
Proof.
  revert c. induction z as [|k z IH]; intros [|x c]; cbn [forallb zdot]; try reflexivity.
  intros H. apply andb_prop in H. destruct H as [H1 H2].
  apply Z.eqb_eq in H1. subst k. rewrite IH by exact H2. lra.
Qed.

Lemma traces_zero :
  forallb (fun n => forallb (fun rest =>
    forallb (Z.eqb 0)
      (zadd (zadd (coefs (2 * n + 1) (entry n (0 :: 0 :: rest)%nat))
                  (coefs (2 * n + 1) (entry n (1 :: 1 :: rest)%nat)))
            (coefs (2 * n + 1) (entry n (2 :: 2 :: rest)%nat))))
    (product3 (n - 2))) (seq 2 4) = true.
Proof. vm_compute. reflexivity. Qed.

Lemma expanded_traceless n c : (n <= 5)%nat -> length c = (2 * n + 1)%nat ->
  traceless n (expanded n c).
Proof.
  intros Hn Hl l1 l2 l3 H1 H2 H3 HL.
  assert (P : forall k, Permutation (l1 ++ k :: l2 ++ k :: l3) (k :: k :: l1 ++ l2 ++ l3)).
  { intros k. rewrite <- Permutation_middle. constructor.
    rewrite app_assoc. rewrite <- Permutation_middle. now rewrite app_assoc. }
  unfold expanded. rewrite !(entry_perm n _ _ (P _)).
  set (rest := l1 ++ l2 ++ l3).
  assert (Hr : idx_of_order (n - 2) rest).
  { unfold rest. split; [rewrite !app_length; lia|].
    unfold axes_ok. rewrite !Forall_app. auto. }
  pose proof traces_zero as T. rewrite forallb_forall in T.
  specialize (T n). rewrite in_seq in T. specialize (T ltac:(lia)).
  rewrite forallb_forall in T. specialize (T rest (proj2 (product3_in _ _) Hr)).
  apply zdot_zero with (c := c) in T.
  rewrite !zdot_add in T by (rewrite ?zadd_length; rewrite ?coefs_length; auto).
  rewrite <- Hl, !zdot_coefs in T. exact T.
Qed.

(** entries with a name are the given ones *)
Lemma named_entries :
  forallb (fun n => forallb (fun i =>
    match name_to_idx (nth i (names_of n) ""%string) with
    | Ok idx => (Nat.eqb (length idx) n) &&
        match entry n idx with Sel j => Nat.eqb i j | Lap _ _ => false end
    | Raise _ => false
    end) (seq 0 (2 * n + 1))) orders = true.
Proof. vm_compute. reflexivity. Qed.

Lemma named_entry n i s : (n <= 5)%nat -> nth_error (names_of n) i = Some s ->
  exists idx, name_to_idx s = Ok idx /\ idx_of_order n idx /\ entry n idx = Sel i /\
    (i < 2 * n + 1)%nat.
Proof.
  intros Hn Hs.
  assert (Hi : (i < 2 * n + 1)%nat).
  { pose proof names_length as L. rewrite forallb_forall in L.
    specialize (L n (proj1 (in_orders n) Hn)). apply Nat.eqb_eq in L.
    rewrite <- L. apply nth_error_Some. congruence. }
  pose proof named_entries as T. rewrite forallb_forall in T.
  specialize (T n (proj1 (in_orders n) Hn)). rewrite forallb_forall in T.
  specialize (T i ltac:(apply in_seq; lia)).
  rewrite (nth_error_nth _ _ _ Hs) in T.
  destruct (name_to_idx s) as [idx|] eqn:E; [|discriminate].
  apply andb_prop in T. destruct T as [T1 T2]. apply Nat.eqb_eq in T1.
  exists idx. split; [reflexivity|]. split.
  - split; [exact T1|]. now apply (name_to_idx_axes s).
  - destruct (entry n idx) as [j|]; [|discriminate].
    apply Nat.eqb_eq in T2. subst j. auto.
Qed.

(** C12 *)
Lemma expand_spec n c : (n <= 5)%nat -> length c = (2 * n + 1)%nat ->
  exists t T, expand_tensor c = Ok t /\ holds n t T /\
    symmetric n T /\ traceless n T /\
    forall i s idx, nth_error (nth n derivative_names []) i = Some s ->
      name_to_idx s = Ok idx -> nth_error c i = Some (T idx).
Proof.
  intros Hn Hl. exists (map (expanded n c) (product3 n)), (expanded n c).
  split; [now apply expand_tensor_ok|].
  split; [now apply expand_holds|].
  split; [apply expanded_sym|].
  split; [now apply expanded_traceless|].
  intros i s idx Hs Hidx.
  destruct (named_entry n i s Hn Hs) as (idx' & E1 & E2 & E3 & E4).
  rewrite Hidx in E1. injection E1 as <-.
  unfold expanded. rewrite E3. cbn. apply nth_error_nth'. lia.
Qed.

(** select *)
Lemma select_map_nth n : (n <= 5)%nat ->
  nth_error select_map n =
  Some (map (fun s => rowmajor (name_idx s)) (names_of n)).
Proof.
  intros Hn.
  assert (E : nth_error select_map n =
    Some (map (fun s => match name_to_idx s with Ok l => idx_to_nidx l | Raise _ => 0%nat end)
              (names_of n))).
  { do 6 (destruct n as [|n]; [reflexivity|]). lia. }
  rewrite E. f_equal. apply map_ext_in. intros s Hs.
  apply In_nth_error in Hs. destruct Hs as [i Hi].
  destruct (named_entry n i s Hn Hi) as (idx & E1 & _).
  unfold name_idx. rewrite E1. apply idx_to_nidx_rowmajor.
Qed.

Lemma names_of_length n : (n <= 5)%nat -> length (names_of n) = (2 * n + 1)%nat.
Proof.
  intros Hn. pose proof names_length as L. rewrite forallb_forall in L.
  specialize (L n (proj1 (in_orders n) Hn)). now apply Nat.eqb_eq in L.
Qed.

Lemma select_holds n t T : (n <= 5)%nat -> holds n t T ->
  select_tensor n t = Ok (map (fun s => T (name_idx s)) (names_of n)).
Proof.
  intros Hn [HL HT]. unfold select_tensor.
  destruct (Nat.ltb_spec n 2) as [H|H].
  - f_equal. destruct n as [|[|n]]; [| |lia].
    + cbn in HL. destruct t as [|x [|]]; try discriminate.
      cbn. specialize (HT [] (conj eq_refl (Forall_nil _))). cbn in HT. congruence.
    + cbn in HL. destruct t as [|x [|y [|z [|]]]]; try discriminate.
      cbn. assert (HA : forall a, (a < 3)%nat ->
        nth_error [x; y; z] (rowmajor [a]) = Some (T [a]))
        by (intros a Ha; apply HT; split; [reflexivity|constructor; [exact Ha|constructor]]).
      assert (A0 := HA 0%nat ltac:(lia)). assert (A1 := HA 1%nat ltac:(lia)).
      assert (A2 := HA 2%nat ltac:(lia)). cbn in A0, A1, A2. congruence.
  - rewrite select_map_nth by exact Hn. rewrite map_map. apply collect_ok.
    intros s Hs. apply In_nth_error in Hs. destruct Hs as [i Hi].
    destruct (named_entry n i s Hn Hi) as (idx & E1 & E2 & _).
    unfold name_idx. rewrite E1. now rewrite HT.
Qed.

Lemma nth_error_ext {A} (l l' : list A) : length l = length l' ->
  (forall i, (i < length l)%nat -> nth_error l i = nth_error l' i) -> l = l'.
Proof.
  revert l'. induction l as [|a l IH]; intros [|b l'] HL H; try discriminate; [reflexivity|].
  pose proof (H 0%nat ltac:(cbn; lia)) as H0. cbn in H0. injection H0 as ->.
  f_equal. apply IH; [now injection HL|].
  intros i Hi. apply (H (S i)). cbn. lia.
Qed.

(** C13 *)
Lemma select_expand n c : (n <= 5)%nat -> length c = (2 * n + 1)%nat ->
  exists t, expand_tensor c = Ok t /\ select_tensor n t = Ok c.
Proof.
  intros Hn Hl. destruct (expand_spec n c Hn Hl) as (t & T & E1 & E2 & _ & _ & E3).
  exists t. split; [exact E1|]. rewrite (select_holds n t T Hn E2). f_equal.
  apply nth_error_ext.
  - rewrite map_length, names_of_length; auto.
  - intros i Hi. rewrite map_length in Hi. rewrite nth_error_map.
    destruct (nth_error (names_of n) i) as [s|] eqn:Es;
      [|now apply nth_error_None, Nat.nlt_ge in Es].
    destruct (named_entry n i s Hn Es) as (idx & F1 & F2 & _).
    cbn [option_map]. rewrite (E3 i s idx Es F1). unfold name_idx. now rewrite F1.
Qed.

Fixpoint list_eqb (a b : list nat) : bool :=
  match a, b with
  | [], [] => true
  | x :: a', y :: b' => Nat.eqb x y && list_eqb a' b'
  | _, _ => false
  end.
Lemma list_eqb_eq a : forall b, list_eqb a b = true -> a = b.
Proof.
  induction a as [|x a IH]; intros [|y b] H; cbn in H; try discriminate; [reflexivity|].
  apply andb_prop in H. destruct H as [H1 H2]. apply Nat.eqb_eq in H1. subst.
  f_equal. auto.
Qed.

Lemma entries_laplace :
  forallb (fun n => forallb (fun idx =>
    match entry n idx with
    | Sel i => list_eqb (name_idx (nth i (names_of n) ""%string)) (sorted idx)
    | Lap a b =>
        existsb (fun ab =>
          list_eqb (name_idx (nth a (names_of n) ""%string)) (fst ab) &&
          list_eqb (name_idx (nth b (names_of n) ""%string)) (snd ab))
        (find_laplace idx)
    end) (product3 n)) orders = true.
Proof. vm_compute. reflexivity. Qed.

Lemma expand_select n t T : (n <= 5)%nat -> holds n t T ->
  symmetric n T -> traceless n T ->
  exists c, select_tensor n t = Ok c /\ expand_tensor c = Ok t.
Proof.
  intros Hn Ht Hs Htr. eexists. split; [now apply (select_holds n t T)|].
  set (c := map (fun s => T (name_idx s)) (names_of n)).
  assert (Hc : length c = (2 * n + 1)%nat)
    by (unfold c; now rewrite map_length, names_of_length).
  rewrite (expand_tensor_ok n c Hn Hc). f_equal.
  destruct Ht as [HL HT].
  apply nth_error_ext; [now rewrite map_length, product3_length|].
  intros k Hk. rewrite map_length in Hk.
  destruct (nth_error (product3 n) k) as [idx|] eqn:Ek;
    [|apply nth_error_None in Ek; lia].
  assert (Hidx : idx_of_order n idx) by (apply product3_in; eapply nth_error_In; eauto).
  assert (Hkr : k = rowmajor idx).
  { destruct Hidx as [Hi1 Hi2]. pose proof (product3_nth idx Hi2) as N.
    rewrite Hi1 in N.
    assert (ND : NoDup (product3 n)).
    { clear. induction n as [|n IH]; [repeat constructor; intros []|].
      cbn [product3 flat_map].
      assert (M : forall a, NoDup (map (cons a) (product3 n))).
      { intros a. apply FinFun.Injective_map_NoDup; [|exact IH].
        intros x y H. now injection H. }
      assert (DJ : forall a (L : list (list nat)), (forall x, In x L -> hd 0%nat x <> a) ->
         NoDup L -> NoDup (map (cons a) (product3 n) ++ L)).
      { intros a L HLd HND. revert M. intros M. specialize (M a).
        induction (map (cons a) (product3 n)) as [|x r IHr] eqn:Em in M |- *.
        - exact HND.
        - assert (AllA : forall y, In y (x :: r) -> hd 0%nat y = a).
          { intros y Hy. rewrite <- Em in Hy. apply in_map_iff in Hy.
            now destruct Hy as (z & <- & _). }
          clear Em IHr. revert M AllA. generalize (x :: r) as m.
          induction m as [|y m IHm]; intros M AllA; [exact HND|].
          cbn. inversion M; subst. constructor.
          + rewrite in_app_iff. intros [H|H]; [contradiction|].
            apply (HLd _ H). apply AllA. now left.
          + apply IHm; [assumption|]. intros z Hz. apply AllA. now right. }
      apply DJ.
      - intros x Hx. rewrite !in_app_iff in Hx.
        destruct Hx as [Hx|[Hx|[]]]; apply in_map_iff in Hx;
          destruct Hx as (z & <- & _); cbn; lia.
      - apply DJ.
        + intros x Hx. rewrite !in_app_iff in Hx.
          destruct Hx as [Hx|[]]; apply in_map_iff in Hx;
            destruct Hx as (z & <- & _); cbn; lia.
        + apply DJ; [intros x []|constructor]. }
    rewrite NoDup_nth_error in ND. apply ND; [|congruence].
    apply nth_error_Some. congruence. }
  rewrite nth_error_map, Ek. cbn [option_map]. rewrite Hkr, (HT idx Hidx). f_equal.
  unfold expanded.
  pose proof entries_laplace as EL. rewrite forallb_forall in EL.
  specialize (EL n (proj1 (in_orders n) Hn)). rewrite forallb_forall in EL.
  specialize (EL idx (proj2 (product3_in _ _) Hidx)).
  destruct (entry_single n idx Hn Hidx) as [_ Hlt].
  assert (NV : forall i, (i < 2 * n + 1)%nat ->
    nth i c 0 = T (name_idx (nth i (names_of n) ""%string))).
  { intros i Hi. unfold c.
    rewrite (nth_indep _ 0 (T (name_idx ""%string))) by (rewrite map_length, names_of_length; lia).
    now rewrite (map_nth (fun s => T (name_idx s))). }
  destruct (entry n idx) as [i|a b]; cbn [ent_val ent_lt] in *.
  - apply list_eqb_eq in EL. apply Nat.ltb_lt in Hlt. rewrite NV by exact Hlt.
    rewrite EL. symmetry. apply Hs; [exact Hidx|apply sorted_perm].
  - apply andb_prop in Hlt. destruct Hlt as [La Lb]. apply Nat.ltb_lt in La, Lb.
    rewrite !NV by assumption.
    apply existsb_exists in EL. destruct EL as ([u v] & Hin & Huv).
    apply andb_prop in Huv. destruct Huv as [Hu Hv].
    apply list_eqb_eq in Hu, Hv. cbn [fst snd] in Hu, Hv. rewrite Hu, Hv.
    destruct (find_laplace_sum n T idx u v Hs Htr Hidx Hin) as (_ & _ & S0). lra.
Qed.

(** uniqueness of the completion *)
Lemma expand_unique n c T : (n <= 5)%nat -> length c = (2 * n + 1)%nat ->
  symmetric n T -> traceless n T ->
  (forall i s idx, nth_error (nth n derivative_names []) i = Some s ->
      name_to_idx s = Ok idx -> nth_error c i = Some (T idx)) ->
  exists t, expand_tensor c = Ok t /\ holds n t T.
Proof.
  intros Hn Hl Hs Ht Hc.
  set (t := map T (product3 n)).
  assert (HT : holds n t T).
  { split; [unfold t; now rewrite map_length, product3_length|].
    intros idx [H1 H2]. unfold t. subst n. now rewrite nth_error_map, product3_nth. }
  exists t. split; [|exact HT].
  destruct (expand_select n t T Hn HT Hs Ht) as (c' & E1 & E2).
  enough (c' = c) by (subst; exact E2).
  rewrite (select_holds n t T Hn HT) in E1. injection E1 as <-.
  apply nth_error_ext; [now rewrite map_length, names_of_length|].
  intros i Hi. rewrite map_length in Hi. rewrite nth_error_map.
  destruct (nth_error (names_of n) i) as [s|] eqn:Es;
    [|apply nth_error_None in Es; lia].
  destruct (named_entry n i s Hn Es) as (idx & F1 & F2 & _).
  cbn [option_map]. rewrite (Hc i s idx Es F1). unfold name_idx. now rewrite F1.
Qed.

(** C11/C13: orders beyond 5 are an IndexError *)
Lemma expand_too_high c : (13 <= length c)%nat -> expand_tensor c = Raise IndexError.
Proof.
  intros H. unfold expand_tensor. destruct (length c) as [|m]; [lia|].
  assert (6 <= m / 2)%nat.
  { apply Nat.div_le_lower_bound; lia. }
  destruct (m / 2)%nat as [|[|k]] eqn:E; try lia.
  rewrite expand_map_none by lia. reflexivity.
Qed.

(** C14 reduced index *)
Lemma reduced_idx_value d idx c : (String.length d <= 5)%nat ->
  name_to_idx d = Ok idx -> length c = (2 * String.length d + 1)%nat ->
  exists e t v, deriv_to_reduced_idx d = Ok e /\ expand_tensor c = Ok t /\
    nth_error t (rowmajor idx) = Some v /\
    match e with
    | Sel i => nth_error c i = Some v
    | Lap a b => exists x y, nth_error c a = Some x /\ nth_error c b = Some y /\ v = - x - y
    end.
Proof.
  intros Hn Hidx Hc. set (n := String.length d) in *.
  destruct (name_to_idx_axes d idx Hidx) as [Hax Hlen]. fold n in Hlen.
  assert (Hio : idx_of_order n idx) by (split; auto).
  destruct (entry_single n idx Hn Hio) as [_ Hlt].
  exists (entry n idx), (map (expanded n c) (product3 n)), (expanded n c idx).
  split; [|split; [|split]].
  - unfold deriv_to_reduced_idx. rewrite Hidx. cbn [bind]. fold n.
    rewrite expand_map_nth by exact Hn. rewrite nth_error_map, idx_to_nidx_rowmajor.
    pose proof (product3_nth idx Hax) as N. rewrite Hlen in N. rewrite N. reflexivity.
  - now apply expand_tensor_ok.
  - now apply expand_holds.
  - unfold expanded. rewrite <- Hc in Hlt. destruct (entry n idx) as [i|a b]; cbn in *.
    + apply Nat.ltb_lt in Hlt. now apply nth_error_nth'.
    + apply andb_prop in Hlt. destruct Hlt as [La Lb]. apply Nat.ltb_lt in La, Lb.
      exists (nth a c 0), (nth b c 0).
      repeat split; now apply nth_error_nth'.
Qed.

Lemma reduced_idx_spelling d d' idx idx' :
  name_to_idx d = Ok idx -> name_to_idx d' = Ok idx' -> Permutation idx idx' ->
  deriv_to_reduced_idx d = deriv_to_reduced_idx d'.
Proof.
  intros H1 H2 HP.
  destruct (name_to_idx_axes d idx H1) as [A1 L1].
  destruct (name_to_idx_axes d' idx' H2) as [A2 L2].
  assert (L : length idx = length idx') by now apply Permutation_length.
  unfold deriv_to_reduced_idx. rewrite H1, H2. cbn [bind].
  rewrite <- L1, <- L2, <- L.
  destruct (Nat.le_gt_cases (length idx) 5) as [Hn|Hn].
  - rewrite expand_map_nth by exact Hn. rewrite !nth_error_map, !idx_to_nidx_rowmajor.
    pose proof (product3_nth idx A1) as N1. pose proof (product3_nth idx' A2) as N2.
    rewrite <- L in N2. rewrite N1, N2. cbn [option_map]. now rewrite (entry_perm _ _ _ HP).
  - now rewrite expand_map_none.
Qed.

(** name_to_deriv / deriv_to_name *)
Lemma derivatives_map_keys :
  forallb (fun e =>
    match name_to_deriv (fst e) with
    | Ok (d, i) => Nat.eqb d (fst (snd e)) && Nat.eqb i (snd (snd e))
    | Raise _ => false end &&
    match deriv_to_name (fst (snd e)) (snd (snd e)) with
    | Ok n => String.eqb n (fst e) | Raise _ => false end) derivatives_map = true.
Proof. vm_compute. reflexivity. Qed.

Lemma name_deriv_inverse n d i :
  name_to_deriv n = Ok (d, i) <-> deriv_to_name d i = Ok n.
Proof.
  pose proof derivatives_map_keys as K. rewrite forallb_forall in K. split.
  - intros H. unfold name_to_deriv in H.
    destruct (find _ derivatives_map) as [e|] eqn:E; [|discriminate].
    injection H as H. apply find_some in E. destruct E as [Ein En].
    apply String.eqb_eq in En. specialize (K e Ein). apply andb_prop in K.
    destruct K as [_ K]. rewrite H in K. cbn [fst snd] in K.
    destruct (deriv_to_name d i) as [m|]; [|discriminate].
    apply String.eqb_eq in K. congruence.
  - intros H. unfold deriv_to_name in H.
    destruct (find _ derivatives_map) as [e|] eqn:E; [|discriminate].
    injection H as H. apply find_some in E. destruct E as [Ein En].
    apply andb_prop in En. destruct En as [E1 E2]. apply Nat.eqb_eq in E1, E2.
    specialize (K e Ein). apply andb_prop in K. destruct K as [K _]. rewrite H in K.
    destruct (name_to_deriv n) as [[d' i']|]; [|discriminate].
    apply andb_prop in K. destruct K as [K1 K2]. apply Nat.eqb_eq in K1, K2. congruence.
Qed.

Lemma deriv_to_name_dom d i :
  (exists n, deriv_to_name d i = Ok n) <-> (d <= 5 /\ i < 2 * d + 1)%nat.
Proof.
  split.
  - intros [n H]. unfold deriv_to_name in H.
    destruct (find _ derivatives_map) as [e|] eqn:E; [|discriminate].
    apply find_some in E. destruct E as [Ein En].
    apply andb_prop in En. destruct En as [E1 E2]. apply Nat.eqb_eq in E1, E2.
    assert (K : forallb (fun e => Nat.leb (fst (snd e)) 5 &&
      Nat.ltb (snd (snd e)) (2 * fst (snd e) + 1)) derivatives_map = true)
      by (vm_compute; reflexivity).
    rewrite forallb_forall in K. specialize (K e Ein). rewrite E1, E2 in K.
    apply andb_prop in K. destruct K as [K1 K2].
    apply Nat.leb_le in K1. apply Nat.ltb_lt in K2. auto.
  - intros [H1 H2].
    assert (K : forallb (fun d => forallb (fun i =>
      match deriv_to_name d i with Ok _ => true | Raise _ => false end)
      (seq 0 (2 * d + 1))) (seq 0 6) = true) by (vm_compute; reflexivity).
    rewrite forallb_forall in K. specialize (K d ltac:(apply in_seq; lia)).
    rewrite forallb_forall in K. specialize (K i ltac:(apply in_seq; lia)).
    destruct (deriv_to_name d i); [eauto|discriminate].
Qed.

(** C16 *)
Lemma construct_ok :
  forallb (fun d => forallb (fun i =>
    match construct_derivative d i with
    | Ok ((e, j), k) =>
        Nat.eqb e (d - 1) && Nat.ltb k 3 &&
        Nat.ltb j (2 * (d - 1) + 1) &&
        match nth_error (names_of d) i, nth_error (names_of (d - 1)) j with
        | Some s, Some s' => list_eqb (sorted (name_idx s)) (sorted (k :: name_idx s'))
        | _, _ => false
        end
    | Raise _ => false
    end) (seq 0 (2 * d + 1))) (seq 1 5) = true.
Proof. vm_compute. reflexivity. Qed.

Lemma construct_spec d i : (1 <= d <= 5)%nat -> (i < 2 * d + 1)%nat ->
  exists j k s s' idx idx', construct_derivative d i = Ok ((d - 1, j), k)%nat /\
    deriv_to_name d i = Ok s /\ deriv_to_name (d - 1) j = Ok s' /\
    name_to_idx s = Ok idx /\ name_to_idx s' = Ok idx' /\ (k < 3)%nat /\
    Permutation idx (k :: idx').
Proof.
  intros Hd Hi. pose proof construct_ok as K. rewrite forallb_forall in K.
  specialize (K d ltac:(apply in_seq; lia)). rewrite forallb_forall in K.
  specialize (K i ltac:(apply in_seq; lia)).
  destruct (construct_derivative d i) as [[[e j] k]|]; [|discriminate].
  apply andb_prop in K. destruct K as [K Kp]. apply andb_prop in K. destruct K as [K Kj].
  apply andb_prop in K. destruct K as [Ke Kk].
  apply Nat.eqb_eq in Ke. subst e. apply Nat.ltb_lt in Kk, Kj.
  destruct (nth_error (names_of d) i) as [s|] eqn:Es; [|discriminate].
  destruct (nth_error (names_of (d - 1)) j) as [s'|] eqn:Es'; [|discriminate].
  apply list_eqb_eq in Kp.
  destruct (named_entry d i s ltac:(lia) Es) as (idx & F1 & F2 & _).
  destruct (named_entry (d - 1) j s' ltac:(lia) Es') as (idx' & G1 & G2 & _).
  unfold name_idx in Kp. rewrite F1, G1 in Kp.
  assert (NN : forall d i s, (d <= 5)%nat -> nth_error (names_of d) i = Some s ->
     deriv_to_name d i = Ok s).
  { clear. intros d i s Hd Hs.
    assert (K : forallb (fun d => forallb (fun i =>
      match deriv_to_name d i with
      | Ok n => String.eqb n (nth i (names_of d) ""%string) | Raise _ => false end)
      (seq 0 (2 * d + 1))) orders = true) by (vm_compute; reflexivity).
    assert (Hi : (i < 2 * d + 1)%nat).
    { rewrite <- names_of_length by exact Hd. apply nth_error_Some. congruence. }
    rewrite forallb_forall in K. specialize (K d (proj1 (in_orders d) Hd)).
    rewrite forallb_forall in K. specialize (K i ltac:(apply in_seq; lia)).
    destruct (deriv_to_name d i) as [n|]; [|discriminate].
    apply String.eqb_eq in K. rewrite (nth_error_nth _ _ _ Hs) in K. congruence. }
  exists j, k, s, s', idx, idx'. repeat split; auto.
  - apply NN; [lia|exact Es].
  - apply NN; [lia|exact Es'].
  - rewrite (sorted_perm idx), (sorted_perm (k :: idx')). now rewrite Kp.
Qed.

(** ** C17 rotation *)
Lemma set_nth_length {A} k (v : A) l : length (set_nth k v l) = length l.
Proof. revert k. induction l; intros [|k]; cbn; auto. Qed.
Lemma nth_set_nth {A} k m (v d : A) l : (k < length l)%nat ->
  nth m (set_nth k v l) d = if Nat.eqb m k then v else nth m l d.
Proof.
  revert k m. induction l as [|a l IH]; intros [|k] [|m] H; cbn in *; try lia; try reflexivity.
  rewrite IH by lia. reflexivity.
Qed.

Lemma list_ext_nth (l l' : list nat) : length l = length l' ->
  (forall i, (i < length l)%nat -> nth i l 0%nat = nth i l' 0%nat) -> l = l'.
Proof. intros. eapply nth_ext; eauto. Qed.

(** the model's axis-wise step, as a contraction of one axis *)
Definition contract (k : nat) (r : mat) (T : tensor) : tensor :=
  fun idx => sum3 (fun b => T (set_nth k b idx) * r b (nth k idx 0%nat)).

Lemma step_contract n k T r idx : (k < n)%nat -> length idx = n ->
  swapaxes k (n - 1) (dot_last (n - 1) (swapaxes k (n - 1) T) r) idx = contract k r T idx.
Proof.
  intros Hk Hl. unfold swapaxes, dot_last, contract.
  set (j := set_nth k (nth (n - 1) idx 0%nat) (set_nth (n - 1) (nth k idx 0%nat) idx)).
  assert (Hj : length j = n) by (unfold j; now rewrite !set_nth_length).
  assert (Nj : forall m, nth m j 0%nat =
     if Nat.eqb m k then nth (n - 1) idx 0%nat
     else if Nat.eqb m (n - 1) then nth k idx 0%nat else nth m idx 0%nat).
  { intros m. unfold j. rewrite nth_set_nth by (rewrite set_nth_length; lia).
    rewrite nth_set_nth by lia. reflexivity. }
  assert (E : forall b, 
    set_nth k (nth (n - 1) (set_nth (n - 1) b j) 0%nat)
      (set_nth (n - 1) (nth k (set_nth (n - 1) b j) 0%nat) (set_nth (n - 1) b j))
    = set_nth k b idx).
  { intros b. apply list_ext_nth; [rewrite !set_nth_length; lia|].
    rewrite !set_nth_length. intros i Hi.
    rewrite !nth_set_nth by (rewrite ?set_nth_length; lia).
    rewrite Nat.eqb_refl.
    destruct (Nat.eqb_spec i k); [reflexivity|].
    destruct (Nat.eqb_spec i (n - 1)) as [->|Hi1].
    - destruct (Nat.eqb_spec k (n - 1)); [congruence|].
      rewrite Nj, Nat.eqb_refl. reflexivity.
    - rewrite Nj. destruct (Nat.eqb_spec i k); [congruence|].
      destruct (Nat.eqb_spec i (n - 1)); [congruence|]. reflexivity. }
  unfold sum3. rewrite !E.
  assert (F : nth (n - 1) j 0%nat = nth k idx 0%nat).
  { rewrite Nj. destruct (Nat.eqb_spec (n - 1) k) as [->|]; [reflexivity|].
    now rewrite Nat.eqb_refl. }
  now rewrite F.
Qed.

Lemma contract_ext k r T T' n idx : (forall i, length i = n -> T i = T' i) ->
  length idx = n -> contract k r T idx = contract k r T' idx.
Proof.
  intros H Hl. unfold contract, sum3. rewrite !H; auto; now rewrite set_nth_length.
Qed.

Lemma fold_contract n r ks : forall T T',
  (forall i, In i ks -> (i < n)%nat) ->
  (forall i, length i = n -> T i = T' i) ->
  forall idx, length idx = n ->
  fold_left (fun t i => swapaxes (n - 1 - i) (n - 1)
      (dot_last (n - 1) (swapaxes (n - 1 - i) (n - 1) t) r)) ks T idx
  = fold_left (fun t i => contract (n - 1 - i) r t) ks T' idx.
Proof.
  induction ks as [|k ks IH]; intros T T' Hks HT idx Hl; cbn [fold_left]; [auto|].
  apply IH; auto.
  - intros i Hi. apply Hks. now right.
  - intros i Hi. rewrite step_contract; [|specialize (Hks k (or_introl eq_refl)); lia|auto].
    eapply contract_ext; eauto.
Qed.

(** contraction below the head commutes with fixing the head *)
Lemma contract_S k r T a l :
  contract (S k) r T (a :: l) = contract k r (fun i => T (a :: i)) l.
Proof. reflexivity. Qed.

Lemma fold_contract_tail r ks : forall T a l,
  fold_left (fun t k => contract (S k) r t) ks T (a :: l)
  = fold_left (fun t k => contract k r t) ks (fun i => T (a :: i)) l.
Proof.
  induction ks as [|k ks IH]; intros T a l; cbn [fold_left]; [reflexivity|].
  rewrite IH. f_equal.
Qed.

Lemma rot_ext r n : forall T T' idx, length idx = n ->
  (forall i, length i = n -> T i = T' i) -> rot r T idx = rot r T' idx.
Proof.
  induction n as [|n IH]; intros T T' [|a l] Hl H; try discriminate; cbn [rot].
  - now apply H.
  - injection Hl as Hl.
    assert (E : forall b, rot r (fun i => T (b :: i)) l = rot r (fun i => T' (b :: i)) l).
    { intros b. apply (IH _ _ l Hl). intros i Hi. apply H. cbn; lia. }
    now rewrite !E.
Qed.

(** all axes contracted, last axis first = the full contraction *)
Lemma contract_all r n : forall T idx, length idx = n ->
  fold_left (fun t k => contract k r t) (rev (seq 0 n)) T idx = rot r T idx.
Proof.
  induction n as [|n IH]; intros T idx Hl.
  - destruct idx; [reflexivity|discriminate].
  - destruct idx as [|a l]; [discriminate|]. injection Hl as Hl.
    cbn [seq rev]. rewrite fold_left_app. cbn [fold_left].
    unfold contract at 1. cbn [set_nth nth].
    rewrite <- seq_shift, <- map_rev.
    assert (FM : forall {A B C} (f : A -> B -> A) (g : C -> B) l0 a0,
      fold_left f (map g l0) a0 = fold_left (fun x y => f x (g y)) l0 a0).
    { clear. intros A B C f g l0. induction l0; intros a0; cbn; auto. }
    rewrite FM. unfold sum3. rewrite !fold_contract_tail, !IH by exact Hl.
    cbn [rot]. lra.
Qed.

Lemma rev_map_seq n : map (fun i => (n - 1 - i)%nat) (seq 0 n) = rev (seq 0 n).
Proof.
  apply list_ext_nth.
  - now rewrite map_length, rev_length.
  - rewrite map_length, seq_length. intros i Hi.
    rewrite rev_nth by now rewrite seq_length.
    rewrite seq_length, seq_nth by lia.
    rewrite (nth_indep _ 0%nat (n - 1 - 0)%nat) by (rewrite map_length, seq_length; lia).
    rewrite (map_nth (fun i => (n - 1 - i)%nat) (seq 0 n) 0%nat i).
    rewrite seq_nth by lia. lia.
Qed.

Lemma rotate_rot n T r idx : length idx = n -> rotate_tensor n T r idx = rot r T idx.
Proof.
  intros Hl. unfold rotate_tensor.
  rewrite (fold_contract n r (seq 0 n) T T); auto.
  - rewrite <- (contract_all r n T idx Hl), <- rev_map_seq.
    assert (FM : forall {A B C} (f : A -> B -> A) (g : C -> B) l0 a0,
      fold_left f (map g l0) a0 = fold_left (fun x y => f x (g y)) l0 a0).
    { clear. intros A B C f g l0. induction l0; intros a0; cbn; auto. }
    now rewrite FM.
  - intros i Hi. apply in_seq in Hi. lia.
Qed.

(** algebra of [rot] *)
Lemma rot_lin r n : forall T1 T2 a b idx, length idx = n ->
  rot r (fun i => a * T1 i + b * T2 i) idx = a * rot r T1 idx + b * rot r T2 idx.
Proof.
  induction n as [|n IH]; intros T1 T2 a b [|k l] Hl; try discriminate; cbn [rot].
  - reflexivity.
  - injection Hl as Hl.
    assert (E : forall q, rot r (fun i => a * T1 (q :: i) + b * T2 (q :: i)) l =
      a * rot r (fun i => T1 (q :: i)) l + b * rot r (fun i => T2 (q :: i)) l).
    { intros q. now apply (IH (fun i => T1 (q :: i)) (fun i => T2 (q :: i))). }
    rewrite !E. ring.
Qed.
Lemma rot_lin3 r n T1 T2 T3 a b c idx : length idx = n ->
  rot r (fun i => a * T1 i + b * T2 i + c * T3 i) idx
  = a * rot r T1 idx + b * rot r T2 idx + c * rot r T3 idx.
Proof.
  intros Hl.
  rewrite (rot_ext r n _ (fun i => 1 * (a * T1 i + b * T2 i) + c * T3 i)) by (auto; intros; lra).
  rewrite (rot_lin r n) by exact Hl. rewrite (rot_lin r n) by exact Hl. ring.
Qed.

Lemma rot_comp r s n : forall T idx, length idx = n ->
  rot s (rot r T) idx = rot (mmul r s) T idx.
Proof.
  induction n as [|n IH]; intros T [|a l] Hl; try discriminate; cbn [rot]; [reflexivity|].
  injection Hl as Hl.
  assert (E : forall b, rot s (fun i =>
      r 0%nat b * rot r (fun l0 => T (0%nat :: l0)) i +
      r 1%nat b * rot r (fun l0 => T (1%nat :: l0)) i +
      r 2%nat b * rot r (fun l0 => T (2%nat :: l0)) i) l
    = r 0%nat b * rot (mmul r s) (fun l0 => T (0%nat :: l0)) l +
      r 1%nat b * rot (mmul r s) (fun l0 => T (1%nat :: l0)) l +
      r 2%nat b * rot (mmul r s) (fun l0 => T (2%nat :: l0)) l).
  { intros b. rewrite (rot_lin3 s n) by exact Hl. now rewrite !IH. }
  rewrite !E. unfold mmul. ring.
Qed.

Lemma rot_delta n : forall T idx, idx_of_order n idx -> rot delta3 T idx = T idx.
Proof.
  induction n as [|n IH]; intros T [|a l] [Hl Hax]; try discriminate; cbn [rot]; [reflexivity|].
  injection Hl as Hl. inversion Hax; subst.
  rewrite !IH by (split; auto).
  destruct a as [|[|[|a]]]; [| | |lia]; unfold delta3; cbn; ring.
Qed.

Lemma rot_mat_ext n r s : (forall a b, (a < 3)%nat -> (b < 3)%nat -> r a b = s a b) ->
  forall T idx, idx_of_order n idx -> rot r T idx = rot s T idx.
Proof.
  intros H. induction n as [|n IH]; intros T [|a l] [Hl Hax]; try discriminate; cbn [rot].
  - reflexivity.
  - injection Hl as Hl. inversion Hax; subst.
    rewrite !IH by (split; auto). rewrite !H by lia. reflexivity.
Qed.

Lemma rot_inverse n r T idx : orthogonal r -> idx_of_order n idx ->
  rot (transpose r) (rot r T) idx = T idx.
Proof.
  intros Ho Hi. rewrite (rot_comp r (transpose r) n) by apply Hi.
  rewrite (rot_mat_ext n _ delta3); [now apply (rot_delta n)| |exact Hi].
  intros a b Ha Hb. now apply Ho.
Qed.

(** swapping two adjacent indices *)
Lemma rot_swap r n : forall T, 
  (forall l1 a b l2, (length l1 + length l2 + 2 = n)%nat ->
     axes_ok l1 -> axes_ok l2 -> (a < 3)%nat -> (b < 3)%nat ->
     T (l1 ++ a :: b :: l2) = T (l1 ++ b :: a :: l2)) ->
  forall l1 a b l2, (length l1 + length l2 + 2 = n)%nat ->
  axes_ok l1 -> axes_ok l2 -> (a < 3)%nat -> (b < 3)%nat ->
  rot r T (l1 ++ a :: b :: l2) = rot r T (l1 ++ b :: a :: l2).
Proof.
  assert (RE : forall n T T' idx, length idx = n -> 
     (forall i, idx_of_order n i -> T i = T' i) -> rot r T idx = rot r T' idx).
  { clear. induction n as [|n IH]; intros T T' [|a l] Hl H; try discriminate; cbn [rot].
    - apply H. split; [reflexivity|constructor].
    - injection Hl as Hl.
      assert (E : forall b, (b < 3)%nat ->
        rot r (fun i => T (b :: i)) l = rot r (fun i => T' (b :: i)) l).
      { intros b Hb. apply (IH _ _ l Hl). intros i [Hi1 Hi2]. apply H.
        split; [cbn; lia|now constructor]. }
      rewrite !E by lia. reflexivity. }
  intros T HT l1. revert n T HT. induction l1 as [|c l1 IH];
    intros n T HT a b l2 Hl H1 H2 Ha Hb.
  - cbn [app rot].
    assert (E : forall p q, (p < 3)%nat -> (q < 3)%nat ->
      rot r (fun l => T (p :: q :: l)) l2 = rot r (fun l => T (q :: p :: l)) l2).
    { intros p q Hp Hq. apply (RE (length l2)); [reflexivity|].
      intros i [Hi1 Hi2]. apply (HT [] p q i); auto. cbn in *. lia. }
    rewrite (E 1%nat 0%nat), (E 2%nat 0%nat), (E 2%nat 1%nat) by lia. ring.
  - cbn [app rot]. inversion H1; subst.
    assert (E : forall p, (p < 3)%nat ->
      rot r (fun l => T (p :: l)) (l1 ++ a :: b :: l2) =
      rot r (fun l => T (p :: l)) (l1 ++ b :: a :: l2)).
    { intros p Hp. apply (IH (length l1 + length l2 + 2)%nat); auto.
      intros m1 u v m2 Hm Hm1 Hm2 Hu Hv. apply (HT (p :: m1) u v m2); auto.
      - cbn in *. lia.
      - now constructor. }
    rewrite !E by lia. reflexivity.
Qed.

Lemma sym_of_swaps n (T : tens) :
  (forall l1 a b l2, (length l1 + length l2 + 2 = n)%nat ->
     axes_ok l1 -> axes_ok l2 -> (a < 3)%nat -> (b < 3)%nat ->
     T (l1 ++ a :: b :: l2) = T (l1 ++ b :: a :: l2)) ->
  symmetric n T.
Proof.
  intros H i j Hi HP.
  assert (G : forall pre, axes_ok pre -> (length pre + length i = n)%nat ->
     axes_ok i -> T (pre ++ i) = T (pre ++ j)).
  { clear Hi. induction HP as [|x l l' HP IH|x y l|l l' l'' HP1 IH1 HP2 IH2];
      intros pre Hp Hl Hax.
    - reflexivity.
    - inversion_clear Hax as [|? ? Hx Hr].
      specialize (IH (pre ++ [x])). rewrite <- !app_assoc in IH. apply IH; auto.
      + unfold axes_ok. rewrite Forall_app. split; [exact Hp|now constructor].
      + rewrite app_length. cbn in *. lia.
    - inversion_clear Hax as [|? ? Hy Hr]. inversion_clear Hr as [|? ? Hx Hr'].
      apply H; auto. cbn in Hl. lia.
    - rewrite IH1 by auto. apply IH2; auto.
      + now rewrite <- (Permutation_length HP1).
      + eapply axes_ok_perm; eauto. }
  destruct Hi as [Hi1 Hi2]. apply (G []); auto; constructor.
Qed.

Lemma rot_symmetric n r T : symmetric n T -> symmetric n (rot r T).
Proof.
  intros Hs. apply sym_of_swaps. intros l1 a b l2 Hl H1 H2 Ha Hb.
  apply (rot_swap r n); auto.
  intros m1 u v m2 Hm Hm1 Hm2 Hu Hv. apply Hs.
  - split; [rewrite app_length; cbn; lia|].
    unfold axes_ok. rewrite Forall_app. split; [auto|]. repeat (apply Forall_cons; [auto|]); auto.
  - apply Permutation_app_head. constructor.
Qed.

Lemma rot_traceless n r T : orthogonal r -> symmetric n T -> traceless n T ->
  traceless n (rot r T).
Proof.
  intros Ho Hs Ht l1 l2 l3 H1 H2 H3 HL.
  pose proof (rot_symmetric n r T Hs) as Hrs.
  set (rest := l1 ++ l2 ++ l3).
  assert (Hr : idx_of_order (n - 2) rest).
  { unfold rest. split; [rewrite !app_length; lia|].
    unfold axes_ok. rewrite !Forall_app. auto. }
  assert (P : forall k, Permutation (l1 ++ k :: l2 ++ k :: l3) (k :: k :: rest)).
  { intros k. rewrite <- Permutation_middle. constructor.
    rewrite app_assoc. rewrite <- Permutation_middle. unfold rest. now rewrite app_assoc. }
  assert (Q : forall k, (k < 3)%nat ->
     rot r T (l1 ++ k :: l2 ++ k :: l3) = rot r T (k :: k :: rest)).
  { intros k Hk. apply Hrs; [|apply P].
    eapply order_perm; [|symmetry; apply P].
    destruct Hr as [Hr1 Hr2]. split; [cbn; lia|]. repeat (apply Forall_cons; [auto|]); auto. }
  rewrite !Q by lia. cbn [rot].
  assert (RE : forall m U U' idx, length idx = m -> 
     (forall i, idx_of_order m i -> U i = U' i) -> rot r U idx = rot r U' idx).
  { clear. induction m as [|m IH]; intros T T' [|a l] Hl H; try discriminate; cbn [rot].
    - apply H. split; [reflexivity|constructor].
    - injection Hl as Hl.
      assert (E : forall b, (b < 3)%nat ->
        rot r (fun i => T (b :: i)) l = rot r (fun i => T' (b :: i)) l).
      { intros b Hb. apply (IH _ _ l Hl). intros i [Hi1 Hi2]. apply H.
        split; [cbn; lia|now constructor]. }
      rewrite !E by lia. reflexivity. }
  (* contraction of the two traced indices gives delta *)
  set (S := fun p q => rot r (fun l => T (p :: q :: l)) rest).
  assert (D : forall p q, (p < 3)%nat -> (q < 3)%nat ->
     r p 0%nat * r q 0%nat + r p 1%nat * r q 1%nat + r p 2%nat * r q 2%nat = delta3 p q).
  { intros p q Hp Hq. now apply Ho. }
  assert (T0 : 1 * S 0%nat 0%nat + 1 * S 1%nat 1%nat + 1 * S 2%nat 2%nat = 0).
  { unfold S. destruct Hr as [Hr1 Hr2].
    rewrite <- (rot_lin3 r (n - 2) (fun l => T (0%nat :: 0%nat :: l))
       (fun l => T (1%nat :: 1%nat :: l)) (fun l => T (2%nat :: 2%nat :: l)) 1 1 1 rest Hr1).
    rewrite (RE (n - 2)%nat _ (fun _ => 0 * 0 + 0 * 0)); [|exact Hr1|].
    - rewrite (rot_lin r (n - 2) (fun _ => 0) (fun _ => 0)) by exact Hr1. ring.
    - intros i [Hi1 Hi2]. pose proof (Ht [] [] i) as HT0. cbn [app length] in HT0.
      specialize (HT0 (Forall_nil _) (Forall_nil _) Hi2 ltac:(lia)). lra. }
  fold (S 0%nat 0%nat) (S 0%nat 1%nat) (S 0%nat 2%nat)
       (S 1%nat 0%nat) (S 1%nat 1%nat) (S 1%nat 2%nat)
       (S 2%nat 0%nat) (S 2%nat 1%nat) (S 2%nat 2%nat).
  pose proof (D 0 0)%nat as D00. pose proof (D 0 1)%nat as D01. pose proof (D 0 2)%nat as D02.
  pose proof (D 1 1)%nat as D11. pose proof (D 1 2)%nat as D12. pose proof (D 2 2)%nat as D22.
  unfold delta3 in *. cbn [Nat.eqb] in *.
  specialize (D00 ltac:(lia) ltac:(lia)). specialize (D01 ltac:(lia) ltac:(lia)).
  specialize (D02 ltac:(lia) ltac:(lia)). specialize (D11 ltac:(lia) ltac:(lia)).
  specialize (D12 ltac:(lia) ltac:(lia)). specialize (D22 ltac:(lia) ltac:(lia)).
  match goal with |- ?L = 0 => replace L with
    ((r 0%nat 0%nat * r 0%nat 0%nat + r 0%nat 1%nat * r 0%nat 1%nat + r 0%nat 2%nat * r 0%nat 2%nat) * S 0%nat 0%nat +
     (r 0%nat 0%nat * r 1%nat 0%nat + r 0%nat 1%nat * r 1%nat 1%nat + r 0%nat 2%nat * r 1%nat 2%nat) * (S 0%nat 1%nat + S 1%nat 0%nat) +
     (r 0%nat 0%nat * r 2%nat 0%nat + r 0%nat 1%nat * r 2%nat 1%nat + r 0%nat 2%nat * r 2%nat 2%nat) * (S 0%nat 2%nat + S 2%nat 0%nat) +
     (r 1%nat 0%nat * r 1%nat 0%nat + r 1%nat 1%nat * r 1%nat 1%nat + r 1%nat 2%nat * r 1%nat 2%nat) * S 1%nat 1%nat +
     (r 1%nat 0%nat * r 2%nat 0%nat + r 1%nat 1%nat * r 2%nat 1%nat + r 1%nat 2%nat * r 2%nat 2%nat) * (S 1%nat 2%nat + S 2%nat 1%nat) +
     (r 2%nat 0%nat * r 2%nat 0%nat + r 2%nat 1%nat * r 2%nat 1%nat + r 2%nat 2%nat * r 2%nat 2%nat) * S 2%nat 2%nat) by ring end.
  rewrite D00, D01, D02, D11, D12, D22. lra.
Qed.

(** ** restatement with the specification's own names *)
Lemma spells_name_to_idx s l : spells s l <-> name_to_idx s = Ok l.
Proof.
  split.
  - induction 1; [reflexivity| | |];
      cbn [append name_to_idx]; rewrite IHspells; reflexivity.
  - revert l. induction s as [|c s IH]; cbn [name_to_idx]; intros l H.
    + injection H as <-. constructor.
    + destruct (axis_of c) as [a|] eqn:Ea; cbn [bind] in H; [|discriminate].
      destruct (name_to_idx s) as [m|] eqn:Em; cbn [bind] in H; [|discriminate].
      injection H as <-. specialize (IH m eq_refl).
      destruct (axis_letter a c Ea) as [Hc Ha].
      destruct a as [|[|[|a]]]; [| | |lia]; injection Hc as <-.
      * exact (spells_x s m IH).
      * exact (spells_y s m IH).
      * exact (spells_z s m IH).
Qed.
Lemma doc_names_eq n : (n <= 5)%nat -> doc_names n = nth n derivative_names [].
Proof. intros Hn. do 6 (destruct n as [|n]; [reflexivity|]). lia. Qed.
Lemma doc_names_out n : (5 < n)%nat -> doc_names n = [].
Proof. intros Hn. do 6 (destruct n as [|n]; [lia|]). reflexivity. Qed.

Lemma expand_spec' n c : (n <= 5)%nat -> length c = (2 * n + 1)%nat ->
  exists t T, expand_tensor c = Ok t /\ holds n t T /\
    symmetric n T /\ traceless n T /\
    forall i s idx, nth_error (doc_names n) i = Some s -> spells s idx ->
      nth_error c i = Some (T idx).
Proof.
  intros Hn Hl. destruct (expand_spec n c Hn Hl) as (t & T & H1 & H2 & H3 & H4 & H5).
  exists t, T. repeat (split; [assumption|]). intros i s idx Hs Hi.
  apply (H5 i s idx); [now rewrite <- doc_names_eq|now apply spells_name_to_idx].
Qed.
Lemma expand_unique' n c T : (n <= 5)%nat -> length c = (2 * n + 1)%nat ->
  symmetric n T -> traceless n T ->
  (forall i s idx, nth_error (doc_names n) i = Some s -> spells s idx ->
      nth_error c i = Some (T idx)) ->
  exists t, expand_tensor c = Ok t /\ holds n t T.
Proof.
  intros Hn Hl Hs Ht Hc. apply (expand_unique n c T); auto.
  intros i s idx E1 E2. apply (Hc i s idx); [now rewrite doc_names_eq|now apply spells_name_to_idx].
Qed.
Lemma select_spec n t T : (n <= 5)%nat -> holds n t T ->
  exists c, select_tensor n t = Ok c /\ length c = (2 * n + 1)%nat /\
    forall i s idx, nth_error (doc_names n) i = Some s -> spells s idx ->
      nth_error c i = Some (T idx).
Proof.
  intros Hn HT. eexists. split; [now apply (select_holds n t T)|]. split.
  - now rewrite map_length, names_of_length.
  - intros i s idx Hs Hi. rewrite doc_names_eq in Hs by exact Hn.
    rewrite nth_error_map. unfold names_of. rewrite Hs. cbn [option_map].
    apply spells_name_to_idx in Hi. unfold name_idx. now rewrite Hi.
Qed.
Lemma deriv_to_name_doc d i s :
  deriv_to_name d i = Ok s <-> nth_error (doc_names d) i = Some s.
Proof.
  assert (K : forallb (fun d => forallb (fun i =>
      match deriv_to_name d i, nth_error (doc_names d) i with
      | Ok n, Some m => String.eqb n m | _, _ => false end)
      (seq 0 (2 * d + 1))) (seq 0 6) = true) by (vm_compute; reflexivity).
  assert (G : (d <= 5 /\ i < 2 * d + 1)%nat ->
    exists n, deriv_to_name d i = Ok n /\ nth_error (doc_names d) i = Some n).
  { intros [H1 H2].
    rewrite forallb_forall in K. specialize (K d ltac:(apply in_seq; lia)).
    rewrite forallb_forall in K. specialize (K i ltac:(apply in_seq; lia)).
    destruct (deriv_to_name d i) as [n|]; [|discriminate].
    destruct (nth_error (doc_names d) i) as [m|]; [|discriminate].
    apply String.eqb_eq in K. subst. eauto. }
  split; intros H.
  - destruct G as (n & E1 & E2); [now apply deriv_to_name_dom; exists s|]. congruence.
  - assert (D : (d <= 5 /\ i < 2 * d + 1)%nat).
    { destruct (Nat.le_gt_cases d 5) as [Hd|Hd].
      - split; [exact Hd|]. rewrite <- names_of_length by exact Hd.
        unfold names_of. rewrite <- doc_names_eq by exact Hd.
        apply nth_error_Some. congruence.
      - rewrite doc_names_out in H by lia. destruct i; discriminate. }
    destruct (G D) as (n & E1 & E2). congruence.
Qed.
Lemma reduced_idx_value' d idx c : (length idx <= 5)%nat -> spells d idx ->
  length c = (2 * length idx + 1)%nat ->
  exists e t v, deriv_to_reduced_idx d = Ok e /\ expand_tensor c = Ok t /\
    nth_error t (rowmajor idx) = Some v /\
    match e with
    | Sel i => nth_error c i = Some v
    | Lap a b => exists x y, nth_error c a = Some x /\ nth_error c b = Some y /\ v = - x - y
    end.
Proof.
  intros Hn Hs Hc. apply spells_name_to_idx in Hs.
  destruct (name_to_idx_axes d idx Hs) as [_ L].
  apply reduced_idx_value; auto; rewrite <- L; auto.
Qed.
Lemma reduced_idx_too_long d idx : (5 < length idx)%nat -> spells d idx ->
  deriv_to_reduced_idx d = Raise IndexError.
Proof.
  intros Hn Hs. apply spells_name_to_idx in Hs.
  destruct (name_to_idx_axes d idx Hs) as [_ L].
  unfold deriv_to_reduced_idx. rewrite Hs. cbn [bind].
  now rewrite expand_map_none by lia.
Qed.
Lemma idx_to_name_spec s idx : spells s idx ->
  exists s' idx', idx_to_name idx = Ok s' /\ spells s' idx' /\
    Permutation idx idx' /\ StronglySorted le idx'.
Proof.
  intros H. apply spells_name_to_idx in H.
  destruct (name_to_idx_axes s idx H) as [A _].
  destruct (name_of_idx_of_name idx A) as (s' & E1 & E2).
  exists s', (sorted idx). split; [exact E1|]. split; [now apply spells_name_to_idx|].
  split; [apply sorted_perm|apply sorted_sorted].
Qed.
Lemma construct_spec' d i : (1 <= d <= 5)%nat -> (i < 2 * d + 1)%nat ->
  exists j k s s' idx idx', construct_derivative d i = Ok ((d - 1, j), k)%nat /\
    nth_error (doc_names d) i = Some s /\ nth_error (doc_names (d - 1)) j = Some s' /\
    spells s idx /\ spells s' idx' /\ (k < 3)%nat /\
    Permutation idx (k :: idx').
Proof.
  intros Hd Hi. destruct (construct_spec d i Hd Hi) as
    (j & k & s & s' & idx & idx' & H1 & H2 & H3 & H4 & H5 & H6 & H7).
  exists j, k, s, s', idx, idx'.
  apply deriv_to_name_doc in H2, H3. apply spells_name_to_idx in H4, H5. auto 10.
Qed.
Lemma construct_fail d i : (d = 0 \/ 5 < d \/ 2 * d + 1 <= i)%nat ->
  construct_derivative d i = Raise KeyError.
Proof.
  intros H. destruct d as [|d]; [reflexivity|]. cbn [construct_derivative].
  destruct (Nat.le_gt_cases (S d) 5) as [Hd|Hd].
  - assert (Hi : (2 * S d + 1 <= i)%nat) by lia.
    destruct (nth_error derivative_names (S d)) as [names|] eqn:E; [|reflexivity].
    destruct (nth_error derivative_names d); [|reflexivity].
    assert (L : length names = (2 * S d + 1)%nat).
    { rewrite <- names_of_length by exact Hd. unfold names_of.
      now rewrite (nth_error_nth _ _ _ E). }
    destruct (nth_error names i) eqn:E2; [|reflexivity].
    assert (i < length names)%nat by (apply nth_error_Some; congruence). lia.
  - destruct (nth_error derivative_names (S d)) eqn:E; [|reflexivity].
    assert (S d < length derivative_names)%nat by (apply nth_error_Some; congruence).
    cbn [derivative_names length] in H0. lia.
Qed.
Lemma rotate_compose n T r s idx : length idx = n ->
  rotate_tensor n (rotate_tensor n T r) s idx = rotate_tensor n T (mmul r s) idx.
Proof.
  intros Hl. rewrite !rotate_rot by exact Hl.
  rewrite (rot_ext s n _ (rot r T)) by (auto; intros; now apply rotate_rot).
  now apply (rot_comp r s n).
Qed.
Lemma rotate_inverse n T r idx : orthogonal r -> idx_of_order n idx ->
  rotate_tensor n (rotate_tensor n T r) (transpose r) idx = T idx.
Proof.
  intros Ho Hi. pose proof Hi as [Hl _]. rewrite rotate_rot by exact Hl.
  rewrite (rot_ext _ n _ (rot r T)) by (auto; intros; now apply rotate_rot).
  now apply (rot_inverse n).
Qed.
Lemma rotate_symmetric n T r : symmetric n T -> symmetric n (rotate_tensor n T r).
Proof.
  intros Hs i j [Hl Hax] HP.
  rewrite !rotate_rot; [|now rewrite <- (Permutation_length HP)|exact Hl].
  apply (rot_symmetric n r T Hs); [split; auto|exact HP].
Qed.
Lemma rotate_traceless n T r : orthogonal r -> symmetric n T -> traceless n T ->
  traceless n (rotate_tensor n T r).
Proof.
  intros Ho Hs Ht l1 l2 l3 H1 H2 H3 HL.
  rewrite !rotate_rot by (repeat (rewrite app_length; cbn [length]); lia).
  now apply (rot_traceless n r T Ho Hs Ht).
Qed.
Lemma rotate_identity n T idx : idx_of_order n idx -> rotate_tensor n T delta3 idx = T idx.
Proof.
  intros Hi. rewrite rotate_rot by apply Hi. now apply (rot_delta n).
Qed.
Lemma unknown_names :
  (forall n, (forall d, ~ In n (doc_names d)) -> name_to_deriv n = Raise KeyError) /\
  (forall d i, nth_error (doc_names d) i = None -> deriv_to_name d i = Raise KeyError) /\
  (forall s, (forall l, ~ spells s l) -> name_to_idx s = Raise ValueError) /\
  (forall idx, ~ axes_ok idx -> idx_to_name idx = Raise IndexError).
Proof.
  split; [|split; [|split]].
  - intros n H. destruct (name_to_deriv n) as [[d i]|e] eqn:E.
    + exfalso. apply name_deriv_inverse, deriv_to_name_doc, nth_error_In in E. exact (H d E).
    + unfold name_to_deriv in E. destruct (find _ _); congruence.
  - intros d i H. destruct (deriv_to_name d i) as [s|e] eqn:E.
    + apply deriv_to_name_doc in E. congruence.
    + unfold deriv_to_name in E. destruct (find _ _); congruence.
  - intros s H. assert (R : forall s e, name_to_idx s = Raise e -> e = ValueError).
    { clear. induction s as [|c s IH]; intros e; cbn [name_to_idx]; [discriminate|]. unfold axis_of. destruct (Ascii.eqb c "x"%char), (Ascii.eqb c "y"%char), (Ascii.eqb c "z"%char); cbn [bind]; try (destruct (name_to_idx s) as [l|e'] eqn:E; cbn [bind]; [discriminate|intros [= <-]; now apply IH]). now intros [= <-]. }
    destruct (name_to_idx s) as [l|e] eqn:E; [exfalso; apply (H l), spells_name_to_idx, E|now rewrite (R s e E)].
  - intros idx H. unfold idx_to_name. assert (G : forall l e, join_letters l = Raise e -> e = IndexError).
    { clear. induction l as [|i l IH]; intros e; cbn [join_letters]; [discriminate|]. destruct i as [|[|[|i]]]; cbn [letter_of bind]; try (destruct (join_letters l) as [s|e'] eqn:E; cbn [bind]; [discriminate|intros [= <-]; now apply IH]). now intros [= <-]. }
    destruct (join_letters (sorted idx)) as [s|e] eqn:E; [|now rewrite (G _ _ E)]. exfalso. apply H.
    assert (K : forall l s, join_letters l = Ok s -> axes_ok l).
    { clear. induction l as [|i l IH]; intros s; cbn [join_letters]; [constructor|]. destruct (letter_of i) eqn:Ei; cbn [bind]; [|discriminate]. destruct (join_letters l) eqn:El; cbn [bind]; [|discriminate]. intros _. constructor; [|eapply IH; reflexivity]. destruct i as [|[|[|i]]]; cbn in Ei; try lia. discriminate. }
    apply K in E. unfold axes_ok in *. rewrite Forall_forall in *. intros a Ha. apply E. eapply Permutation_in; [apply sorted_perm|exact Ha].
Qed.
Lemma import_ok : import_asserts = true.
Proof. vm_compute. reflexivity. Qed.
