(** Proofs about constraints, for PropsCons. *)
From Coq Require Import Binomial Sorted Permutation.
From Verif Require Import Base ModelUtils ModelField ModelCons SpecTensor SpecField SpecCons ProofTensor ProofField ProofDeriv ProofSys ProofGrid.
Open Scope R_scope.
Notation length := List.length.

(** ** Ranges *)
Lemma range_of (vs : list R -> list R) mn mx v :
  admits (if (is_some mn || is_some mx)%bool then
        if opt_eqb mn mx then match mn with Some m => [Ctr vs CEq m] | None => [] end
        else match mn with Some m => [Ctr vs CGe m] | None => [] end
          ++ match mx with Some m => [Ctr vs CLe m] | None => [] end
      else []) v <-> forall x, In x (vs v) -> within mn mx x.
Proof.
  unfold admits, satisfies, within. destruct mn as [lo|]; destruct mx as [hi|]; cbn [is_some orb opt_eqb app].
  - destruct (Req_EM_T lo hi) as [<-|Hne].
    + split.
      * intros H x Hx. specialize (H _ (or_introl eq_refl) x Hx). cbn in H. split; intros ? E; injection E as <-; lra.
      * intros H c [<-|[]] x Hx. cbn in *. destruct (H x Hx) as [A B]. specialize (A _ eq_refl). specialize (B _ eq_refl). lra.
    + split.
      * intros H x Hx. pose proof (H _ (or_introl eq_refl) x Hx) as A. pose proof (H _ (or_intror (or_introl eq_refl)) x Hx) as B.
        cbn in A, B. split; intros ? E; injection E as <-; lra.
      * intros H c [<-|[<-|[]]] x Hx; cbn in *; destruct (H x Hx) as [A B]; auto.
  - split.
    + intros H x Hx. pose proof (H _ (or_introl eq_refl) x Hx) as A. cbn in A. split; intros ? E; [injection E as <-; lra|discriminate].
    + intros H c [<-|[]] x Hx. cbn in *. destruct (H x Hx) as [A B]. auto.
  - split.
    + intros H x Hx. pose proof (H _ (or_introl eq_refl) x Hx) as A. cbn in A. split; intros ? E; [discriminate|injection E as <-; lra].
    + intros H c [<-|[]] x Hx. cbn in *. destruct (H x Hx) as [A B]. auto.
  - split; [intros _ x _; split; intros ? E; discriminate|intros _ c []].
Qed.
Lemma range_all mn mx n : exists cs, pattern_range mn mx None n = Ok cs /\
  forall v, length v = n -> (admits cs v <-> forall i, (i < n)%nat -> within mn mx (nth i v 0)).
Proof.
  eexists. split; [reflexivity|]. intros v Hv. rewrite (range_of (fun v => v)). split.
  - intros H i Hi. apply H. apply nth_In. lia.
  - intros H x Hx. apply (In_nth _ _ 0) in Hx. destruct Hx as (i & Hi & <-). apply H. lia.
Qed.
Lemma range_index mn mx n i j : (j < n)%nat -> (i = Z.of_nat j \/ i = Z.of_nat j - Z.of_nat n)%Z ->
  exists cs, pattern_range mn mx (Some i) n = Ok cs /\
  forall v, length v = n -> (admits cs v <-> within mn mx (nth j v 0)).
Proof.
  intros Hj Hi. unfold pattern_range.
  assert (E : py_index (seq 0 n) i = Ok j).
  { unfold py_index. rewrite seq_length.
    assert (Ez : (if (i <? 0)%Z then (i + Z.of_nat n)%Z else i) = Z.of_nat j).
    { destruct (Z.ltb_spec i 0); lia. }
    rewrite Ez. destruct (Z.ltb_spec (Z.of_nat j) 0); [lia|]. rewrite Nat2Z.id.
    rewrite (nth_error_nth' _ 0%nat) by (rewrite seq_length; lia). now rewrite seq_nth by lia. }
  rewrite E. cbn [bind]. eexists. split; [reflexivity|]. intros v Hv.
  rewrite (range_of (fun v => [nth j v 0])). split.
  - intros H. apply H. now left.
  - intros H x [<-|[]]. exact H.
Qed.
Lemma range_index_out mn mx n i : (i < - Z.of_nat n \/ Z.of_nat n <= i)%Z -> pattern_range mn mx (Some i) n = Raise IndexError.
Proof.
  intros Hi. unfold pattern_range, py_index. rewrite seq_length.
  destruct (Z.ltb_spec i 0).
  - destruct (Z.ltb_spec (i + Z.of_nat n) 0); [reflexivity|lia].
  - destruct (Z.ltb_spec i 0); [reflexivity|].
    replace (nth_error (seq 0 n) (Z.to_nat i)) with (@None nat); [reflexivity|].
    symmetry. apply nth_error_None. rewrite seq_length. lia.
Qed.
Lemma single_ok mn mx off c : exists cs, single_constraints mn mx off (Ok c) = Ok cs /\
  forall v, admits cs v <-> within mn mx (dot c v) /\ forall o, off = Some o -> dot c v = o.
Proof.
  unfold single_constraints. cbn [bind].
  assert (G : forall v, admits (match off with Some o => [Ctr (fun v => [dot c v]) CEq o] | None => [] end
     ++ match mn with Some m => [Ctr (fun v => [dot c v]) CGe m] | None => [] end
     ++ match mx with Some m => [Ctr (fun v => [dot c v]) CLe m] | None => [] end) v <->
     within mn mx (dot c v) /\ forall o, off = Some o -> dot c v = o).
  { intros v. unfold admits, within. split.
    - intros H.
      assert (K : forall o m, In (Ctr (fun v => [dot c v]) o m) (match off with Some o => [Ctr (fun v => [dot c v]) CEq o] | None => [] end
     ++ match mn with Some m => [Ctr (fun v => [dot c v]) CGe m] | None => [] end
     ++ match mx with Some m => [Ctr (fun v => [dot c v]) CLe m] | None => [] end) -> holds_op o (dot c v) m).
      { intros o m HI. apply (H _ HI). cbn. now left. }
      split; [split|].
      + intros lo ->. apply (K CGe). rewrite !in_app_iff. right. left. now left.
      + intros hi ->. apply (K CLe). rewrite !in_app_iff. right. right. now left.
      + intros o ->. apply (K CEq). rewrite !in_app_iff. left. now left.
    - intros [[H1 H2] H3] k HI x Hx. rewrite !in_app_iff in HI.
      destruct HI as [HI|[HI|HI]].
      + destruct off as [o|]; [|destruct HI]. destruct HI as [<-|[]]. destruct Hx as [<-|[]]. cbn. auto.
      + destruct mn as [o|]; [|destruct HI]. destruct HI as [<-|[]]. destruct Hx as [<-|[]]. cbn. auto.
      + destruct mx as [o|]; [|destruct HI]. destruct HI as [<-|[]]. destruct Hx as [<-|[]]. cbn. auto. }
  destruct (is_some off || is_some mn || is_some mx)%bool eqn:E.
  - eexists. split; [reflexivity|]. exact G.
  - exists []. split; [reflexivity|]. intros v. rewrite <- G. destruct off; [discriminate|]. destruct mn; [discriminate|]. destruct mx; [discriminate|].
    reflexivity.
Qed.

(** ** Potential objectives *)
Definition unit_row (g : geom) (n : nat) (x : p3) : row := tab (2 * n + 1) (fun i => unit_term g n i x).
Lemma tab_length {A} n (f : nat -> A) : length (tab n f) = n.
Proof. unfold tab. now rewrite map_length, seq_length. Qed.
Lemma tab_nth {A} n (f : nat -> A) i d : (i < n)%nat -> nth i (tab n f) d = f i.
Proof.
  intros H. unfold tab. rewrite (nth_indep _ d (f 0%nat)) by (now rewrite map_length, seq_length).
  rewrite map_nth, seq_nth by exact H. reflexivity.
Qed.
Lemma list_eq_nth {A} (l l' : list A) d : length l = length l' -> (forall i, (i < length l)%nat -> nth i l d = nth i l' d) -> l = l'.
Proof. intros H1 H2. apply (nth_ext l l' d d H1 H2). Qed.
Lemma nth_map' {A B} (f : A -> B) l i da db : (i < length l)%nat -> nth i (map f l) db = f (nth i l da).
Proof. intros H. rewrite (nth_indep _ db (f da)) by (now rewrite map_length). apply map_nth. Qed.
Lemma individual_rows s x n : wf s -> exists c, individual_potential s [x] n = Ok c /\
  map (fun rows => nth 0 rows []) c = map (fun e => unit_row (egeom e) n x) s.
Proof.
  intros W. destruct (individual_spec s [x] n W) as (eff & E & L & C). exists eff. split; [exact E|].
  apply (list_eq_nth _ _ []); rewrite !map_length; [exact L|]. intros m Hm. rewrite L in Hm.
  destruct (C m Hm) as [[SL SF] SC].
  rewrite (nth_map' (fun rows => nth 0 rows []) eff m [] []) by lia.
  rewrite (nth_map' (fun e => unit_row (egeom e) n x) s m dflt []) by lia.
  assert (LR : length (nth 0 (nth m eff []) []) = (2 * n + 1)%nat).
  { rewrite Forall_forall in SF. apply SF. apply nth_In. cbn in SL. lia. }
  apply (list_eq_nth _ _ 0); [unfold unit_row; now rewrite tab_length|]. intros i Hi. rewrite LR in Hi.
  unfold unit_row. rewrite tab_nth by exact Hi. exact (SC 0%nat i ltac:(cbn; lia)).
Qed.
Lemma pick_entry n c T d idx : (n <= 5)%nat -> length c = (2 * n + 1)%nat -> symmetric n T -> traceless n T ->
  (forall i s j, nth_error (doc_names n) i = Some s -> spells s j -> nth_error c i = Some (T j)) ->
  spells d idx -> length idx = n ->
  exists e, deriv_to_reduced_idx d = Ok e /\ pick c e = Ok (T idx).
Proof.
  intros Hn Hc HS HT HN Hd Hl.
  destruct (expand_unique' n c T Hn Hc HS HT HN) as (t & Et & [HL HH]).
  destruct (reduced_idx_value' d idx c) as (e & t' & v & E1 & E2 & E3 & E4); [lia|exact Hd|lia|].
  exists e. split; [exact E1|]. rewrite Et in E2. injection E2 as <-.
  assert (Hi : idx_of_order n idx).
  { split; [exact Hl|]. apply spells_name_to_idx in Hd. now apply name_to_idx_axes in Hd. }
  rewrite (HH idx Hi) in E3. injection E3 as <-.
  destruct e as [i|a b]; cbn [pick].
  - rewrite py_index_nat, E4. reflexivity.
  - destruct E4 as (u & w & Ea & Eb & ->). rewrite !py_index_nat, Ea, Eb. cbn [bind]. f_equal. ring.
Qed.
Lemma expanded_named n c i s j : (n <= 5)%nat -> length c = (2 * n + 1)%nat -> nth_error (doc_names n) i = Some s -> spells s j ->
  nth_error c i = Some (expanded n c j).
Proof.
  intros Hn Hc Hi Hj. rewrite doc_names_eq in Hi by exact Hn. destruct (named_entry n i s Hn Hi) as (idx & E1 & _ & E3 & E4).
  apply spells_name_to_idx in Hj. rewrite E1 in Hj. injection Hj as <-.
  unfold expanded. rewrite E3. cbn. apply nth_error_nth'. lia.
Qed.
Lemma spells_order d idx : spells d idx -> idx_of_order (String.length d) idx.
Proof.
  intros H. apply spells_name_to_idx in H. apply name_to_idx_axes in H. destruct H as [A L]. now split.
Qed.
Lemma flatten_holds n T : holds n (flatten n T) T.
Proof.
  unfold flatten. split; [now rewrite map_length, product3_length|].
  intros idx [H1 H2]. subst n. now rewrite nth_error_map, product3_nth.
Qed.
Lemma tensor_of_expanded n c idx : (n <= 5)%nat -> length c = (2 * n + 1)%nat -> idx_of_order n idx ->
  tensor_of (map (expanded n c) (product3 n)) idx = expanded n c idx.
Proof.
  intros Hn Hc Hi. unfold tensor_of. rewrite idx_to_nidx_rowmajor. apply nth_error_nth. now apply (expand_holds n c Hn Hc).
Qed.
(** one coefficient *)
Definition row_entry (n : nat) (rotation : option mat) (c : row) (idx : list nat) : R :=
  match rotation with None => expanded n c idx | Some r => rot r (expanded n c) idx end.
Lemma rot_ext3 r n : forall T T' idx, (forall i, idx_of_order n i -> T i = T' i) -> length idx = n -> rot r T idx = rot r T' idx.
Proof.
  induction n as [|n IH]; intros T T' idx H Hl; destruct idx as [|a idx]; try discriminate; cbn [rot].
  - apply H. split; [reflexivity|constructor].
  - cbn in Hl. injection Hl as Hl.
    assert (K : forall b, (b < 3)%nat -> rot r (fun l => T (b :: l)) idx = rot r (fun l => T' (b :: l)) idx).
    { intros b Hb. apply IH; [|exact Hl]. intros i [Hi1 Hi2]. apply H. split; [cbn; now rewrite Hi1|]. now constructor. }
    rewrite !K by lia. reflexivity.
Qed.
Lemma coefficient n rotation c d idx : (n <= 5)%nat -> length c = (2 * n + 1)%nat -> spells d idx -> length idx = n ->
  rotation_ok rotation ->
  exists c' e, rotate_row n rotation c = Ok c' /\ deriv_to_reduced_idx d = Ok e /\ pick c' e = Ok (row_entry n rotation c idx).
Proof.
  intros Hn Hc Hd Hl HR. destruct rotation as [r|]; cbn [rotate_row row_entry].
  - rewrite expand_tensor_ok with (n := n) by assumption. cbn [bind].
    set (T := rot r (expanded n c)).
    assert (HT : forall i, idx_of_order n i -> rotate_tensor n (tensor_of (map (expanded n c) (product3 n))) r i = T i).
    { intros i [Hi1 Hi2]. rewrite rotate_rot by exact Hi1. unfold T. apply (rot_ext3 r n); [|exact Hi1].
      intros j Hj. now apply tensor_of_expanded. }
    assert (HF : holds n (flatten n (rotate_tensor n (tensor_of (map (expanded n c) (product3 n))) r)) T).
    { destruct (flatten_holds n (rotate_tensor n (tensor_of (map (expanded n c) (product3 n))) r)) as [F1 F2].
      split; [exact F1|]. intros i Hi. rewrite F2 by exact Hi. now rewrite HT. }
    destruct (select_spec n _ T Hn HF) as (c' & E & L & N).
    rewrite E. exists c'. destruct (pick_entry n c' T d idx Hn L) as (e & E1 & E2); auto.
    + apply rot_symmetric. apply expanded_sym.
    + apply rot_traceless; [exact HR|apply expanded_sym|now apply expanded_traceless].
    + exists e. auto.
  - exists c. destruct (pick_entry n c (expanded n c) d idx Hn Hc) as (e & E1 & E2); auto.
    + apply expanded_sym.
    + now apply expanded_traceless.
    + intros i s j Hi Hj. now apply (expanded_named n c i s j).
    + exists e. auto.
Qed.
Lemma collect_map {A B} (f : A -> res B) (g : A -> B) l : (forall a, In a l -> f a = Ok (g a)) -> collect (map f l) = Ok (map g l).
Proof.
  induction l as [|a l IH]; intros H; [reflexivity|]. cbn [map collect]. rewrite (H a (or_introl eq_refl)). cbn [bind].
  rewrite IH by (intros b Hb; apply H; now right). reflexivity.
Qed.
Lemma get_coeffs s x d rotation idx : wf s -> (length idx <= 5)%nat -> spells d idx -> rotation_ok rotation ->
  potential_get s x d rotation = Ok (map (fun e => row_entry (length idx) rotation (unit_row (egeom e) (length idx) x) idx) s).
Proof.
  intros W Hn Hd HR. pose proof (spells_order d idx Hd) as [HL _]. set (n := length idx) in *.
  destruct (individual_rows s x n W) as (c & E & EC).
  assert (L0 : forall g, length (unit_row g n x) = (2 * n + 1)%nat) by (intros g; apply tab_length).
  destruct (coefficient n rotation (unit_row (ECover 1) n x) d idx Hn (L0 _) Hd eq_refl HR) as (_ & e & _ & Ee & _).
  unfold potential_get. rewrite Ee. cbn [bind]. rewrite <- HL, E. cbn [bind].
  rewrite <- (map_map (fun rows => nth 0 rows []) (fun row => rotate_row n rotation row)), EC, map_map.
  set (rr := fun g => match rotate_row n rotation (unit_row g n x) with Ok c' => c' | Raise _ => [] end).
  assert (HC : forall g, rotate_row n rotation (unit_row g n x) = Ok (rr g) /\ pick (rr g) e = Ok (row_entry n rotation (unit_row g n x) idx)).
  { intros g. destruct (coefficient n rotation (unit_row g n x) d idx Hn (L0 _) Hd eq_refl HR) as (c' & e' & E1 & E2 & E3).
    unfold rr. rewrite E1. split; [reflexivity|]. congruence. }
  rewrite (collect_map _ (fun el => rr (egeom el))) by (intros el _; apply HC). cbn [bind].
  rewrite map_map. apply collect_map. intros el _. apply HC.
Qed.
Lemma expanded_sum {A} n (l : list A) (w : A -> R) (f : A -> nat -> R) idx : (n <= 5)%nat -> idx_of_order n idx ->
  sum_over l (fun a => w a * expanded n (tab (2 * n + 1) (f a)) idx) =
  expanded n (tab (2 * n + 1) (fun i => sum_over l (fun a => w a * f a i))) idx.
Proof.
  intros Hn Hi. unfold expanded. destruct (entry_single n idx Hn Hi) as [_ Hlt].
  destruct (entry n idx) as [i|a b]; cbn [ent_val ent_lt] in *.
  - apply Nat.ltb_lt in Hlt. rewrite tab_nth by lia. apply sum_ext. intros. now rewrite tab_nth by lia.
  - apply andb_prop in Hlt. destruct Hlt as [La Lb]. apply Nat.ltb_lt in La, Lb. rewrite !tab_nth by lia.
    replace (- sum_over l (fun a0 => w a0 * f a0 a) - sum_over l (fun a0 => w a0 * f a0 b)) with
      (-1 * sum_over l (fun a0 => w a0 * f a0 a) + -1 * sum_over l (fun a0 => w a0 * f a0 b)) by ring.
    rewrite <- !sum_scal, <- sum_plus. apply sum_ext. intros. rewrite !tab_nth by lia. ring.
Qed.
Lemma rot_sum {A} r n (l : list A) (w : A -> R) : forall (T : A -> tens) idx, length idx = n ->
  sum_over l (fun a => w a * rot r (T a) idx) = rot r (fun i => sum_over l (fun a => w a * T a i)) idx.
Proof.
  induction n as [|n IH]; intros T idx Hl; destruct idx as [|k idx]; try discriminate; cbn [rot]; [reflexivity|].
  cbn in Hl. injection Hl as Hl.
  rewrite <- !(IH (fun a l => T a (_ :: l)) idx Hl).
  rewrite <- !sum_scal, <- !sum_plus. apply sum_ext. intros a _. ring.
Qed.
Lemma map2_sum {A} (f g : A -> R) l : sumR (map2 Rmult (map f l) (map g l)) = sum_over l (fun a => f a * g a).
Proof. induction l as [|a l IH]; [reflexivity|]. unfold sum_over. cbn. now rewrite IH. Qed.
Lemma get_value s x d rotation idx : wf s -> (length idx <= 5)%nat -> spells d idx -> rotation_ok rotation ->
  exists c, potential_get s x d rotation = Ok c /\ length c = length s /\
  dot c (map edc s) = in_frame rotation (fun i => tensor_entry s TDc (length idx) i x) idx.
Proof.
  intros W Hn Hd HR. eexists. split; [exact (get_coeffs s x d rotation idx W Hn Hd HR)|]. split; [apply map_length|].
  pose proof (spells_order d idx Hd) as [HL HA]. set (n := length idx) in *.
  assert (Hio : idx_of_order n idx) by (split; auto).
  unfold dot. rewrite map2_sum.
  assert (HE : forall i, idx_of_order n i -> sum_over s (fun e => edc e * expanded n (unit_row (egeom e) n x) i) = tensor_entry s TDc n i x).
  { intros i Hi. rewrite tensor_entry_eq by assumption. unfold unit_row.
    rewrite (expanded_sum n s edc (fun e j => unit_term (egeom e) n j x)) by assumption. reflexivity. }
  destruct rotation as [r|]; cbn [row_entry in_frame].
  - rewrite (sum_ext _ _ (fun e => edc e * rot r (expanded n (unit_row (egeom e) n x)) idx)) by (intros; ring).
    rewrite (rot_sum r n s edc (fun e => expanded n (unit_row (egeom e) n x)) idx eq_refl).
    apply (rot_ext3 r n); [exact HE|reflexivity].
  - rewrite <- HE by exact Hio. apply sum_ext. intros. ring.
Qed.
(** ** Weighted sums *)
Lemma map2_plus_length (a b : list R) n : length a = n -> length b = n -> length (map2 Rplus a b) = n.
Proof. intros Ha Hb. rewrite map2_length; lia. Qed.
Lemma dot_plus a : forall b v, length a = length b -> dot (map2 Rplus a b) v = dot a v + dot b v.
Proof.
  unfold dot. induction a as [|x a IH]; intros [|y b] v H; try discriminate; cbn; [ring|].
  destruct v as [|w v]; cbn; [ring|]. injection H as H. rewrite IH by exact H. ring.
Qed.
Lemma dot_scal k a : forall v, dot (map (Rmult k) a) v = k * dot a v.
Proof.
  unfold dot. induction a as [|x a IH]; intros v; cbn; [ring|]. destruct v as [|w v]; cbn; [ring|]. rewrite IH. ring.
Qed.
Lemma dot_zeros n v : dot (repeat 0 n) v = 0.
Proof. unfold dot. revert v. induction n as [|n IH]; intros v; cbn; [reflexivity|]. destruct v; cbn; [reflexivity|]. rewrite IH. ring. Qed.
(** the components with a value, and their coefficients *)
Lemma multi_spec comps : forall n c, length c = n ->
  (forall v g, In (Some v, g) comps -> exists cs, g = Ok cs /\ length cs = n) ->
  exists c', multi_get c comps = Ok c' /\ length c' = n /\
  forall u, dot c' u = dot c u + sum_over comps (fun vg =>
    match vg with (Some v, Ok cs) => v * dot cs u | _ => 0 end).
Proof.
  induction comps as [|[[v|] g] comps IH]; intros n c Hc H; cbn [multi_get single_objective].
  - exists c. split; [reflexivity|]. split; [exact Hc|]. intros u. unfold sum_over. cbn. ring.
  - destruct (H v g (or_introl eq_refl)) as (cs & -> & HL). cbn [bind fold_left fst snd].
    destruct (IH n (map2 Rplus c (map (Rmult v) cs))) as (c' & E & L & D).
    + apply map2_plus_length; [exact Hc|now rewrite map_length].
    + intros w g' Hg. apply (H w). now right.
    + exists c'. split; [exact E|]. split; [exact L|]. intros u. rewrite D, sum_cons.
      rewrite dot_plus by (rewrite map_length; lia). rewrite dot_scal. ring.
  - cbn [bind fold_left]. destruct (IH n c Hc) as (c' & E & L & D).
    + intros w g' Hg. apply (H w). now right.
    + exists c'. split; [exact E|]. split; [exact L|]. intros u. rewrite D, sum_cons. ring.
Qed.
Lemma multi_ok n comps : (forall v g, In (Some v, g) comps -> exists cs, g = Ok cs /\ length cs = n) ->
  exists c, multi_get (repeat 0 n) comps = Ok c /\ length c = n /\
  forall u, dot c u = sum_over comps (fun vg => match vg with (Some v, Ok cs) => v * dot cs u | _ => 0 end).
Proof.
  intros H. destruct (multi_spec comps n (repeat 0 n) (repeat_length _ _) H) as (c & E & L & D).
  exists c. split; [exact E|]. split; [exact L|]. intros u. rewrite D, dot_zeros. ring.
Qed.

(** ** Finite differences *)
Fixpoint dn (n delta : nat) (f : nat -> R) (i : nat) : R :=
  match n with 0%nat => f i | S m => dn m delta f (i + delta) - dn m delta f i end.
Lemma dn_shift n delta f i k : dn n delta f (i + k) = dn n delta (fun j => f (j + k)%nat) i.
Proof.
  revert i. induction n as [|n IH]; intros i; cbn [dn]; [reflexivity|].
  rewrite <- IH. replace (i + k + delta)%nat with (i + delta + k)%nat by lia. now rewrite <- IH.
Qed.
Lemma C_nn n : C n n = 1.
Proof. unfold C. rewrite Nat.sub_diag. cbn [fact INR]. field. apply INR_fact_neq_0. Qed.
Lemma C_n0 n : C n 0 = 1.
Proof. unfold C. rewrite Nat.sub_0_r. cbn [fact INR]. field. apply INR_fact_neq_0. Qed.
Lemma binomial n delta f i : dn n delta f i = nth_difference n delta f i.
Proof.
  unfold nth_difference. revert i. induction n as [|n IH]; intros i; cbn [dn].
  - cbn [sum_f_R0]. rewrite C_n0, Nat.mul_0_l, !Nat.add_0_r. cbn [pow]. ring.
  - rewrite !IH. clear IH. set (g := fun k => f (i + k * delta)%nat).
    rewrite (sum_eq (fun k => (-1) ^ (n + k) * C n k * f (i + delta + k * delta)%nat) (fun k => (-1) ^ (n + k) * C n k * g (S k))).
    2:{ intros k _. unfold g. do 2 f_equal. lia. }
    rewrite (sum_eq (fun k => (-1) ^ (n + k) * C n k * f (i + k * delta)%nat) (fun k => (-1) ^ (n + k) * C n k * g k)) by reflexivity.
    rewrite (sum_eq (fun k => (-1) ^ (S n + k) * C (S n) k * f (i + k * delta)%nat) (fun k => (-1) ^ (S n + k) * C (S n) k * g k)) by reflexivity.
    rewrite (decomp_sum (fun k => (-1) ^ (S n + k) * C (S n) k * g k)) by lia. cbn [pred].
    destruct n as [|n].
    + cbn [sum_f_R0]. rewrite !C_n0, !C_nn. cbn [pow Nat.add]. ring.
    + rewrite (decomp_sum (fun k => (-1) ^ (S n + k) * C (S n) k * g k) (S n)) by lia. cbn [pred].
      rewrite !(tech5 _ n). rewrite !C_n0, !C_nn.
      assert (E : sum_f_R0 (fun k => (-1) ^ (S n + k) * C (S n) k * g (S k)) n -
                  sum_f_R0 (fun k => (-1) ^ (S n + S k) * C (S n) (S k) * g (S k)) n =
                  sum_f_R0 (fun k => (-1) ^ (S (S n) + S k) * C (S (S n)) (S k) * g (S k)) n).
      { rewrite <- minus_sum. apply sum_eq. intros k Hk. rewrite <- (pascal (S n) k) by lia.
        replace (S (S n) + S k)%nat with (S n + k + 2)%nat by lia. replace (S n + S k)%nat with (S n + k + 1)%nat by lia.
        rewrite !pow_add. ring. }
      rewrite <- E. replace (S (S n) + S (S n))%nat with (S n + S n + 2)%nat by lia.
      replace (S (S n) + 0)%nat with (S n + 0 + 1)%nat by lia. rewrite !pow_add. ring.
Qed.
Lemma differences_length delta obj : length (differences delta obj) = (length obj - delta)%nat.
Proof. unfold differences. now rewrite map_length, seq_length. Qed.
Lemma differences_nth delta obj i e : (i < length obj - delta)%nat ->
  nth i (differences delta obj) vzero e = nth (i + delta) obj vzero e - nth i obj vzero e.
Proof.
  intros Hi. unfold differences. rewrite (nth_map' _ _ i 0%nat) by (now rewrite seq_length).
  rewrite seq_nth by exact Hi. reflexivity.
Qed.
Lemma loop_plain delta is : forall obj,
  length (vd_loop false delta is obj) = (length obj - length is * delta)%nat /\
  forall i e, (i < length obj - length is * delta)%nat ->
    nth i (vd_loop false delta is obj) vzero e = dn (length is) delta (fun j => nth j obj vzero e) i.
Proof.
  induction is as [|a is IH]; intros obj; cbn [vd_loop andb length].
  - split; [lia|]. intros i e _. reflexivity.
  - destruct (IH (differences delta obj)) as [L N]. rewrite differences_length in L, N. split; [lia|].
    intros i e Hi. rewrite N by lia. clear L N IH.
    cbn [dn].
    assert (G : forall m j, (j + m * delta < length obj - delta)%nat -> dn m delta (fun j => nth j (differences delta obj) vzero e) j =
       dn m delta (fun j => nth j obj vzero e) (j + delta) - dn m delta (fun j => nth j obj vzero e) j).
    { intros m. induction m as [|m IHm]; intros j Hj; cbn [dn].
      - apply differences_nth. lia.
      - rewrite !IHm by lia. lra. }
    apply G. lia.
Qed.
Lemma get_plain order delta variables : (1 <= delta)%nat ->
  exists vs, vd_get order delta false variables = Ok vs /\ length vs = (length variables - order * delta)%nat /\
  forall i e, (i < length variables - order * delta)%nat ->
    nth i vs vzero e = nth_difference order delta (fun j => nth j variables vzero e) i / INR delta ^ order.
Proof.
  intros Hd. unfold vd_get. destruct (loop_plain delta (seq 0 order) variables) as [L N]. rewrite seq_length in L, N.
  set (obj := vd_loop false delta (seq 0 order) variables) in *.
  assert (E0 : (delta ^ order =? 0)%nat = false) by (apply Nat.eqb_neq; apply Nat.pow_nonzero; lia).
  assert (E : match obj with [] => Ok [] | _ => if (delta ^ order =? 0)%nat then Raise ZeroDivisionError else Ok (map (vscale (1 / INR (delta ^ order))) obj) end
     = Ok (map (vscale (1 / INR (delta ^ order))) obj)) by (rewrite E0; destruct obj; reflexivity).
  rewrite E. eexists. split; [reflexivity|]. split; [rewrite map_length; exact L|]. intros i e Hi.
  rewrite (nth_map' _ _ i vzero) by lia. unfold vscale. rewrite N by exact Hi. rewrite binomial, pow_INR. unfold Rdiv. ring.
Qed.
(** polynomials *)
Fixpoint padd (a b : list R) : list R :=
  match a, b with [], _ => b | _, [] => a | x :: a, y :: b => (x + y) :: padd a b end.
Lemma padd_poly a : forall b x, poly (padd a b) x = poly a x + poly b x.
Proof. induction a as [|c a IH]; intros [|d b] x; cbn; try ring. rewrite IH. ring. Qed.
Lemma padd_length a : forall b, length a = length b -> length (padd a b) = length b.
Proof. induction a as [|c a IH]; intros [|d b] H; try discriminate; [reflexivity|]. cbn. f_equal. apply IH. now injection H. Qed.
Lemma padd_last a : forall b, length a = length b -> last (padd a b) 0 = last a 0 + last b 0.
Proof.
  induction a as [|c a IH]; intros [|d b] H; try discriminate; cbn [padd]; [cbn; ring|].
  injection H as H. destruct a as [|c' a]; destruct b as [|d' b]; try discriminate; [reflexivity|].
  change (last (c + d :: padd (c' :: a) (d' :: b)) 0) with (last (padd (c' :: a) (d' :: b)) 0).
  change (last (c :: c' :: a) 0) with (last (c' :: a) 0). change (last (d :: d' :: b) 0) with (last (d' :: b) 0). now apply IH.
Qed.
Lemma map_poly k a x : poly (map (Rmult k) a) x = k * poly a x.
Proof. induction a as [|c a IH]; cbn; [ring|]. rewrite IH. ring. Qed.
Lemma map_last k a : last (map (Rmult k) a) 0 = k * last a 0.
Proof. induction a as [|c a IH]; [cbn; ring|]. destruct a as [|d a]; [reflexivity|]. exact IH. Qed.
Lemma last_cons (c : R) a : a <> [] -> last (c :: a) 0 = last a 0.
Proof. destruct a; [congruence|reflexivity]. Qed.
Lemma shift_poly h a : exists s, length s = length a /\ last s 0 = last a 0 /\ forall x, poly s x = poly a (x + h).
Proof.
  induction a as [|c a (s & L & La & P)]; [exists []; auto|].
  destruct a as [|d a].
  - exists [c]. repeat split. intros x. cbn. ring.
  - (* c + (x+h) s(x) *)
    exists (padd (c :: s) (map (Rmult h) s ++ [0])).
    assert (LL : length (c :: s) = length (map (Rmult h) s ++ [0])) by (rewrite app_length, map_length; cbn; lia).
    split; [rewrite padd_length by exact LL; rewrite app_length, map_length, L; cbn; lia|]. split.
    + rewrite padd_last by exact LL. rewrite last_last, last_cons by (intros E; rewrite E in L; discriminate).
      rewrite La, (last_cons c (d :: a)) by discriminate. ring.
    + intros x. rewrite padd_poly.
      assert (PA : forall l, poly (l ++ [0]) x = poly l x) by (induction l as [|u l IHl]; cbn; [ring|rewrite IHl; ring]).
      rewrite PA, map_poly. change (poly (c :: s) x) with (c + x * poly s x).
      change (poly (c :: d :: a) (x + h)) with (c + (x + h) * poly (d :: a) (x + h)). rewrite P. ring.
Qed.
Lemma diff_poly h a : exists q, length q = (length a - 1)%nat /\ last q 0 = INR (length a - 1) * h * last a 0 /\
  forall x, poly q x = poly a (x + h) - poly a x.
Proof.
  induction a as [|c a (q & L & La & P)]; [exists []; cbn; repeat split; intros; ring|].
  destruct (shift_poly h a) as (s & Ls & Las & Ps).
  destruct a as [|d a].
  - exists []. cbn. repeat split; [ring|]. intros x. ring.
  - exists (padd (0 :: q) (map (Rmult h) s)).
    assert (LL : length (0 :: q) = length (map (Rmult h) s)) by (rewrite map_length, Ls; cbn [length] in *; lia).
    split; [rewrite padd_length by exact LL; rewrite map_length, Ls; cbn; lia|]. split.
    + rewrite padd_last by exact LL. rewrite map_last, Las. rewrite (last_cons c (d :: a)) by discriminate.
      cbn [length] in *. replace (S (S (length a)) - 1)%nat with (S (length a)) by lia. rewrite S_INR.
      replace (S (length a) - 1)%nat with (length a) in * by lia.
      destruct q as [|q0 q].
      * cbn in L. rewrite <- L in *. cbn. ring.
      * rewrite last_cons by discriminate. rewrite La. ring.
    + intros x. rewrite padd_poly, map_poly, Ps.
      change (poly (0 :: q) x) with (0 + x * poly q x). rewrite P.
      change (poly (c :: d :: a) (x + h)) with (c + (x + h) * poly (d :: a) (x + h)).
      change (poly (c :: d :: a) x) with (c + x * poly (d :: a) x). ring.
Qed.
Lemma dn_poly n delta : forall a (f : nat -> R) i, length a = S n -> (forall j, (j <= i + n * delta)%nat -> f j = poly a (INR j)) ->
  dn n delta f i = INR (fact n) * INR delta ^ n * last a 0.
Proof.
  induction n as [|n IH]; intros a f i Hl Hf.
  - cbn [dn]. rewrite Hf by lia. destruct a as [|c [|? ?]]; try discriminate. cbn. ring.
  - destruct (diff_poly (INR delta) a) as (q & L & La & P).
    assert (G : forall m j, (j + m * delta + delta <= i + S n * delta)%nat -> dn m delta f (j + delta) - dn m delta f j = dn m delta (fun k => f (k + delta)%nat - f k) j).
    { intros m. induction m as [|m IHm]; intros j Hj; cbn [dn]; [reflexivity|]. rewrite <- !IHm by lia. lra. }
    cbn [dn]. rewrite G by lia.
    rewrite (IH q (fun k => f (k + delta)%nat - f k) i).
    + rewrite La, Hl. replace (S (S n) - 1)%nat with (S n) by lia.
      change (fact (S n)) with (S n * fact n)%nat. rewrite mult_INR. cbn [pow]. ring.
    + rewrite L, Hl. lia.
    + intros j Hj. rewrite !Hf by lia. rewrite P, plus_INR. ring.
Qed.
Lemma poly_pad a k x : poly (a ++ repeat 0 k) x = poly a x.
Proof.
  induction a as [|c a IH]; cbn; [|now rewrite IH]. induction k as [|k IHk]; cbn; [reflexivity|]. rewrite IHk. ring.
Qed.
Lemma difference_poly n delta a f i : (length a <= S n)%nat -> (forall j, (j <= i + n * delta)%nat -> f j = poly a (INR j)) ->
  nth_difference n delta f i = INR (fact n) * INR delta ^ n * nth n a 0.
Proof.
  intros Hl Hf. rewrite <- binomial.
  rewrite (dn_poly n delta (a ++ repeat 0 (S n - length a))).
  - f_equal. destruct (Nat.eq_dec (length a) (S n)) as [E|E].
    + rewrite E, Nat.sub_diag. cbn [repeat]. rewrite app_nil_r.
      rewrite <- (rev_involutive a) at 1. destruct a as [|x a] using rev_ind; [discriminate|].
      rewrite rev_involutive, last_last. rewrite app_length in E. cbn in E. rewrite app_nth2 by lia.
      replace (n - length a)%nat with 0%nat by lia. reflexivity.
    + rewrite nth_overflow by lia. replace (S n - length a)%nat with (S (n - length a)) by lia.
      replace (S (n - length a)) with (n - length a + 1)%nat by lia. rewrite repeat_app, app_assoc. cbn [repeat]. apply last_last.
  - rewrite app_length, repeat_length. lia.
  - intros j Hj. now rewrite poly_pad, Hf.
Qed.
(** ** Norms *)
Lemma vmax_le a b m : (1 <= m)%nat -> (vmax a m <= b <-> forall e, (e < m)%nat -> a e <= b).
Proof.
  intros Hm. induction m as [|m IH]; [lia|]. destruct m as [|m].
  - cbn. split; [|intros H; apply H; lia]. intros H e He. now replace e with 0%nat by lia.
  - change (vmax a (S (S m))) with (Rmax (vmax a (S m)) (a (S m))).
    split.
    + intros H e He. pose proof (Rmax_l (vmax a (S m)) (a (S m))). pose proof (Rmax_r (vmax a (S m)) (a (S m))).
      destruct (Nat.eq_dec e (S m)) as [->|]; [lra|]. apply IH; try lia. lra.
    + intros H. apply Rmax_lub; [apply IH; [lia|intros; apply H; lia]|apply H; lia].
Qed.
Lemma vd_coef_spec m order delta ab norm variables : (1 <= delta)%nat -> norm <> NOther ->
  exists coefs, vd_coef m order delta false ab norm variables = Ok coefs /\
  length coefs = (length variables - order * delta)%nat /\
  forall i, (i < length variables - order * delta)%nat ->
   let D e := nth_difference order delta (fun j => nth j variables vzero e) i / INR delta ^ order in
   let D' e := if ab then Rabs (D e) else D e in
   match norm with
   | NOne => nth i coefs 0 = sumR (map D' (seq 0 m))
   | NInf => forall b, (1 <= m)%nat -> (nth i coefs 0 <= b <-> forall e, (e < m)%nat -> D' e <= b)
   | NOther => True
   end.
Proof.
  intros Hd Hn. destruct (get_plain order delta variables Hd) as (vs & E & L & N).
  unfold vd_coef. rewrite E. cbn [bind].
  set (nf := fun v : vec => match norm with NOne => vsum (if ab then vabs v else v) m | NInf => vmax (if ab then vabs v else v) m | NOther => 0 end).
  rewrite (collect_map _ nf).
  2:{ intros v _. unfold nf. destruct norm; [reflexivity|reflexivity|congruence]. }
  eexists. split; [reflexivity|]. split; [now rewrite map_length|]. intros i Hi.
  set (D := fun e => nth_difference order delta (fun j => nth j variables vzero e) i / INR delta ^ order).
  set (D' := fun e => if ab then Rabs (D e) else D e).
  rewrite (nth_map' nf vs i vzero 0) by lia. unfold nf.
  assert (EV : forall e, (if ab then vabs (nth i vs vzero) else nth i vs vzero) e = D' e).
  { intros e. unfold D', D. destruct ab; unfold vabs; now rewrite N by exact Hi. }
  destruct norm; [| |exact I].
  - unfold vsum. change (sumR (map (fun e => (if ab then vabs (nth i vs vzero) else nth i vs vzero) e) (seq 0 m)) = sumR (map D' (seq 0 m))). f_equal. apply map_ext. exact EV.
  - intros b Hm. pose proof (vmax_le (if ab then vabs (nth i vs vzero) else nth i vs vzero) b m Hm) as V. split; [intros H e He|intros H; apply (proj2 V); intros e He].
    + change (D' e <= b). rewrite <- EV. now apply (proj1 V H).
    + rewrite EV. now apply H.
Qed.
Lemma admits_max mx coefs : vd_admits (Some mx) None coefs <-> forall i, (i < length coefs)%nat -> nth i coefs 0 <= mx.
Proof.
  unfold vd_admits. split.
  - intros [H _] i Hi. specialize (H mx eq_refl). rewrite Forall_forall in H. apply H. now apply nth_In.
  - intros H. split; [|discriminate]. intros m E. injection E as <-. apply Forall_forall. intros x Hx.
    apply (In_nth _ _ 0) in Hx. destruct Hx as (i & Hi & <-). now apply H.
Qed.
Lemma vd_bounds_inf m order delta variables mx : (1 <= delta)%nat -> (1 <= m)%nat ->
  exists coefs, vd_coef m order delta false true NInf variables = Ok coefs /\
  length coefs = (length variables - order * delta)%nat /\
  (vd_admits (Some mx) None coefs <->
   forall i e, (i + order * delta < length variables)%nat -> (e < m)%nat ->
     Rabs (nth_difference order delta (fun j => nth j variables vzero e) i / INR delta ^ order) <= mx).
Proof.
  intros Hd Hm. destruct (vd_coef_spec m order delta true NInf variables Hd ltac:(discriminate)) as (coefs & E & L & N).
  exists coefs. split; [exact E|]. split; [exact L|]. rewrite admits_max, L. split.
  - intros H i e Hi He. apply (proj1 (N i ltac:(lia) mx Hm)); [apply H; lia|exact He].
  - intros H i Hi. apply (proj2 (N i Hi mx Hm)). intros e He. apply H; lia.
Qed.
Lemma vd_bounds_one m order delta variables mx : (1 <= delta)%nat ->
  exists coefs, vd_coef m order delta false true NOne variables = Ok coefs /\
  length coefs = (length variables - order * delta)%nat /\
  (vd_admits (Some mx) None coefs <->
   forall i, (i + order * delta < length variables)%nat ->
     sum_over (seq 0 m) (fun e => Rabs (nth_difference order delta (fun j => nth j variables vzero e) i / INR delta ^ order)) <= mx).
Proof.
  intros Hd. destruct (vd_coef_spec m order delta true NOne variables Hd ltac:(discriminate)) as (coefs & E & L & N).
  exists coefs. split; [exact E|]. split; [exact L|]. rewrite admits_max, L. split.
  - intros H i Hi. unfold sum_over. rewrite <- (N i ltac:(lia)). apply H. lia.
  - intros H i Hi. rewrite (N i Hi). apply H. lia.
Qed.

(** ** The legacy constraint *)
Lemma skipn_nth {A} k : forall (l : list A) i d, nth i (skipn k l) d = nth (k + i) l d.
Proof. induction k as [|k IH]; intros [|x l] i d; cbn; auto. now destruct i. Qed.
Lemma firstn_nth {A} k : forall (l : list A) i d, (i < k)%nat -> nth i (firstn k l) d = nth i l d.
Proof. induction k as [|k IH]; intros [|x l] i d H; cbn; auto; try lia. destruct i; [reflexivity|]. apply IH. lia. Qed.
Definition lo_is (lo : option Z) (p : nat) : Prop := match lo with None => p = 0%nat | Some z => z = Z.of_nat p end.
Definition hi_is (hi : option Z) (p : nat) : Prop := match hi with None => p = 0%nat | Some z => (z = - Z.of_nat p)%Z /\ (0 < p)%nat end.
Lemma slice_spec (l : list vec) lo hi p q : lo_is lo p -> hi_is hi q ->
  length (slice l lo hi) = (length l - q - p)%nat /\
  forall i, (i < length l - q - p)%nat -> nth i (slice l lo hi) vzero = nth (i + p) l vzero.
Proof.
  intros Hlo Hhi. unfold slice.
  assert (EL : match lo with Some i => slice_pos (length l) i | None => 0%nat end = Nat.min (length l) p).
  { destruct lo as [z|]; cbn in Hlo; subst; [|lia]. unfold slice_pos. destruct (Z.ltb_spec (Z.of_nat p) 0); lia. }
  assert (EH : match hi with Some i => slice_pos (length l) i | None => length l end = (length l - q)%nat).
  { destruct hi as [z|]; cbn in Hhi; [|lia]. destruct Hhi as [-> Hq]. unfold slice_pos. destruct (Z.ltb_spec (- Z.of_nat q) 0); lia. }
  rewrite EL, EH. split.
  - rewrite firstn_length, skipn_length. lia.
  - intros i Hi. rewrite firstn_nth by lia. rewrite skipn_nth. f_equal. lia.
Qed.
Lemma zipw_spec n : forall rows, (forall r, In r rows -> length r = n) ->
  zipw rows n = map (fun i => map (fun r => nth i r vzero) rows) (seq 0 n).
Proof.
  induction n as [|n IH]; intros rows H; [reflexivity|]. cbn [zipw seq map].
  assert (E : existsb (fun r : list vec => match r with [] => true | _ => false end) rows = false).
  { apply not_true_is_false. intros E. apply existsb_exists in E. destruct E as (r & Hr & E). specialize (H r Hr). destruct r; discriminate. }
  rewrite E. f_equal.
  - apply map_ext_in. intros r Hr. specialize (H r Hr). destruct r; [discriminate|reflexivity].
  - rewrite IH.
    + rewrite <- seq_shift, map_map. apply map_ext. intros i. rewrite map_map. apply map_ext_in. intros r Hr.
      specialize (H r Hr). destruct r; [discriminate|reflexivity].
    + intros r Hr. apply in_map_iff in Hr. destruct Hr as (r' & <- & Hr'). specialize (H r' Hr'). destruct r'; [discriminate|]. cbn in *. lia.
Qed.
Lemma stencil_spec cs (vs : list vec) (sl : list (option Z * option Z)) ps n : sl <> [] ->
  Forall2 (fun s p => lo_is (fst s) (fst p) /\ hi_is (snd s) (snd p) /\ (fst p + snd p = n)%nat) sl ps ->
  length (stencil cs (map (fun s => slice vs (fst s) (snd s)) sl)) = (length vs - n)%nat /\
  forall i e, (i < length vs - n)%nat ->
    nth i (stencil cs (map (fun s => slice vs (fst s) (snd s)) sl)) vzero e =
    Rabs (sumR (map2 (fun c p => c * nth (i + fst p) vs vzero e) cs ps)).
Proof.
  intros Hne HF. set (rows := map (fun s => slice vs (fst s) (snd s)) sl).
  assert (HR : forall r, In r rows -> length r = (length vs - n)%nat).
  { intros r Hr. unfold rows in Hr. apply in_map_iff in Hr. destruct Hr as (s & <- & Hs).
    induction HF as [|s' p' sl ps [H1 [H2 H3]] HF IH]; [destruct Hs|]. destruct Hs as [->|Hs].
    - destruct (slice_spec vs _ _ _ _ H1 H2) as [L _]. rewrite L. lia.
    - destruct sl; [destruct Hs|]. apply IH; [discriminate|exact Hs]. }
  assert (HH : length (hd [] rows) = (length vs - n)%nat).
  { apply HR. unfold rows. destruct sl; [congruence|]. now left. }
  unfold stencil. rewrite HH, zipw_spec by exact HR. split.
  - rewrite !map_length. apply seq_length.
  - intros i e Hi. rewrite map_map. rewrite (nth_map' _ _ i 0%nat) by (now rewrite seq_length). rewrite seq_nth by exact Hi. cbn [Nat.add].
    unfold vabs, comb. f_equal. unfold rows. clear HR HH rows Hne. revert cs.
    induction HF as [|s p sl ps [H1 [H2 H3]] HF IH]; intros cs; [destruct cs; reflexivity|].
    destruct cs as [|c cs]; [reflexivity|]. cbn [map map2 sumR fold_right].
    change (sumR (?a :: ?b)) with (a + sumR b).
    destruct (slice_spec vs _ _ _ _ H1 H2) as [_ N]. rewrite N by lia.
    specialize (IH cs). cbn [map] in IH. unfold sumR in *. cbn [fold_right]. rewrite <- IH. reflexivity.
Qed.
Ltac stn i delta :=
  cbn [dn map2 fst]; unfold sumR; cbn [fold_right];
  replace (i + delta + delta + delta + delta)%nat with (i + 4 * delta)%nat by lia;
  replace (i + delta + delta + delta)%nat with (i + 3 * delta)%nat by lia;
  replace (i + delta + delta)%nat with (i + 2 * delta)%nat by lia;
  rewrite ?Nat.add_0_r; ring.
Lemma vc_differences order delta variables : (order <= 4)%nat -> (1 <= delta)%nat ->
  exists vs, vc_values (Z.of_nat order) (Z.of_nat delta) false variables = Ok vs /\
  length vs = (length variables - order * delta)%nat /\
  forall i e, (i < length variables - order * delta)%nat ->
    nth i vs vzero e = Rabs (nth_difference order delta (fun j => nth j variables vzero e) i).
Proof.
  intros Ho Hd.
  assert (G : forall cs sl ps, sl <> [] ->
    Forall2 (fun s p => lo_is (fst s) (fst p) /\ hi_is (snd s) (snd p) /\ (fst p + snd p = order * delta)%nat) sl ps ->
    (forall i e, sumR (map2 (fun c p => c * nth (i + fst p) variables vzero e) cs ps) = dn order delta (fun j => nth j variables vzero e) i) ->
    exists vs, Ok (stencil cs (map (fun s => slice variables (fst s) (snd s)) sl)) = Ok vs /\
    length vs = (length variables - order * delta)%nat /\
    forall i e, (i < length variables - order * delta)%nat ->
      nth i vs vzero e = Rabs (nth_difference order delta (fun j => nth j variables vzero e) i)).
  { intros cs sl ps Hne HF HE. destruct (stencil_spec cs variables sl ps _ Hne HF) as [L N].
    eexists. split; [reflexivity|]. split; [exact L|]. intros i e Hi. rewrite N by exact Hi. rewrite HE, binomial. reflexivity. }
  destruct order as [|[|[|[|[|order]]]]]; [..|lia]; cbn [Z.of_nat Pos.of_succ_nat Pos.succ vc_values].
  - eexists. split; [reflexivity|]. split; [rewrite map_length; lia|]. intros i e Hi.
    rewrite (nth_map' _ _ i vzero) by lia. unfold vabs. rewrite <- binomial. reflexivity.
  - set (d := Z.of_nat delta).
    apply (G [1; -1] [(Some d, None); (None, Some (- d)%Z)] [(delta, 0%nat); (0%nat, delta)]); [discriminate| |].
    + repeat (apply Forall2_cons; [cbn [fst snd lo_is hi_is]; unfold d; repeat split; lia|]); apply Forall2_nil.
    + intros i e. stn i delta.
  - set (d := Z.of_nat delta).
    apply (G [1; -2; 1] [(None, Some (-2 * d)%Z); (Some d, Some (- d)%Z); (Some (2 * d)%Z, None)]
      [(0%nat, 2 * delta); (delta, delta); (2 * delta, 0)]%nat); [discriminate| |].
    + repeat (apply Forall2_cons; [cbn [fst snd lo_is hi_is]; unfold d; repeat split; lia|]); apply Forall2_nil.
    + intros i e. stn i delta.
  - set (d := Z.of_nat delta).
    apply (G [1; -3; 3; -1] [(Some (3 * d)%Z, None); (Some (2 * d)%Z, Some (- d)%Z); (Some d, Some (-2 * d)%Z); (None, Some (-3 * d)%Z)]
      [(3 * delta, 0); (2 * delta, delta); (delta, 2 * delta); (0, 3 * delta)]%nat); [discriminate| |].
    + repeat (apply Forall2_cons; [cbn [fst snd lo_is hi_is]; unfold d; repeat split; lia|]); apply Forall2_nil.
    + intros i e. stn i delta.
  - set (d := Z.of_nat delta).
    apply (G [1; -4; 6; -4; 1] [(Some (4 * d)%Z, None); (Some (3 * d)%Z, Some (- d)%Z); (Some (2 * d)%Z, Some (-2 * d)%Z); (Some d, Some (-3 * d)%Z); (None, Some (-4 * d)%Z)]
      [(4 * delta, 0); (3 * delta, delta); (2 * delta, 2 * delta); (delta, 3 * delta); (0, 4 * delta)]%nat); [discriminate| |].
    + repeat (apply Forall2_cons; [cbn [fst snd lo_is hi_is]; unfold d; repeat split; lia|]); apply Forall2_nil.
    + intros i e. stn i delta.
Qed.
Lemma vc_bounds m order delta variables r factor : (order <= 4)%nat -> (1 <= delta)%nat -> 0 < factor ->
  exists vs, vc_values (Z.of_nat order) (Z.of_nat delta) false variables = Ok vs /\
  (vc_admits (vc_yield m None (Some r) factor vs) <->
   forall i e, (i + order * delta < length variables)%nat -> (e < m)%nat ->
     Rabs (nth_difference order delta (fun j => nth j variables vzero e) i) <= r).
Proof.
  intros Ho Hd Hf. destruct (vc_differences order delta variables Ho Hd) as (vs & E & L & N).
  exists vs. split; [exact E|]. unfold vc_admits, vc_yield, vc_norm. rewrite Forall_map, Forall_forall. split.
  - intros H i e Hi He. rewrite <- N by lia.
    assert (Hl : (i < length vs)%nat) by lia. specialize (H (nth i vs vzero) (nth_In _ _ Hl)). rewrite map_map, Forall_map, Forall_forall in H.
    specialize (H e ltac:(apply in_seq; lia)). cbn beta in H.
    apply Rnot_lt_le. intros K. assert (0 < (nth i vs vzero e - r) * factor) by (apply Rmult_lt_0_compat; lra). lra.
  - intros H v Hv. apply (In_nth _ _ vzero) in Hv. destruct Hv as (i & Hi & <-).
    rewrite map_map, Forall_map, Forall_forall. intros e He. apply in_seq in He. rewrite N by lia.
    specialize (H i e ltac:(lia) ltac:(lia)).
    apply Rnot_lt_le. intros K. assert (0 <= (r - Rabs (nth_difference order delta (fun j => nth j variables vzero e) i)) * factor) by (apply Rmult_le_pos; lra). lra.
Qed.
Lemma vc_same order delta variables : (order <= 4)%nat -> (1 <= delta)%nat ->
  exists vs ds, vc_values (Z.of_nat order) (Z.of_nat delta) false variables = Ok vs /\
  vd_get order delta false variables = Ok ds /\ length vs = length ds /\
  forall i e, (i < length vs)%nat -> nth i vs vzero e = INR delta ^ order * Rabs (nth i ds vzero e).
Proof.
  intros Ho Hd. destruct (vc_differences order delta variables Ho Hd) as (vs & E & L & N).
  destruct (get_plain order delta variables Hd) as (ds & E' & L' & N').
  exists vs, ds. repeat split; auto; [lia|]. intros i e Hi. rewrite N, N' by lia.
  assert (P : 0 < INR delta ^ order) by (apply pow_lt, lt_0_INR; lia).
  unfold Rdiv. rewrite Rabs_mult, (Rabs_pos_eq (/ INR delta ^ order)).
  - field. lra.
  - left. now apply Rinv_0_lt_compat.
Qed.
Lemma vc_order order delta smooth variables : (order < -1 \/ 4 < order)%Z ->
  vc_values order delta smooth variables = Raise UnboundLocalError.
Proof.
  intros H. unfold vc_values. destruct order as [|p|p]; [lia| |].
  - destruct p as [[p|p|]|[p|[p|p|]|]|]; try lia; try reflexivity.
  - destruct p as [p|p|]; try lia; reflexivity.
Qed.
