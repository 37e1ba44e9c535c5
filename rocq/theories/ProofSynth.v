From Coq Require Import Permutation.
From Verif Require Import Base ModelTrans ModelHarm SpecHarm ProofHarm ProofFft.
From Coquelicot Require Import Coquelicot.
Open Scope R_scope.
Notation length := List.length.

(** ** the tables *)
Lemma nth_prod {A B} (l : list A) (m : list B) p q da db : (p < length l)%nat -> (q < length m)%nat -> nth (p * length m + q) (list_prod l m) (da, db) = (nth p l da, nth q m db).
Proof.
  revert p. induction l as [|a l IH]; intros p Hp Hq; [cbn in Hp; lia|]. cbn [list_prod]. destruct p as [|p].
  - cbn [Nat.mul Nat.add nth]. rewrite app_nth1 by (rewrite map_length; exact Hq). rewrite (nth_indep _ _ (a, db)) by (rewrite map_length; exact Hq). now rewrite (map_nth (fun y => (a, y))).
  - rewrite app_nth2 by (rewrite map_length; lia). rewrite map_length. replace (S p * length m + q - length m)%nat with (p * length m + q)%nat by lia. cbn [nth]. apply IH; [cbn in Hp; lia|exact Hq].
Qed.
Lemma collect_all_ok {A} (f : A -> res R) (g : A -> R) l : (forall a, In a l -> f a = Ok (g a)) -> collect_all (map f l) = Ok (map g l).
Proof.
  induction l as [|a l IH]; intros H; [reflexivity|]. cbn [map collect_all]. rewrite H by now left. cbn [bind]. rewrite IH; [reflexivity|]. intros b Hb. apply H. now right.
Qed.
(** n and m of a cell *)
Definition cell_n (N p q : nat) : nat := if (p <=? q)%nat then q else (N - 1 - q)%nat.
Definition cell_m (N p q : nat) : Z := if (p <=? q)%nat then Z.of_nat p else (Z.of_nat p - Z.of_nat N)%Z.
Lemma cell_valid N p q : (p < N)%nat -> (q < N)%nat -> valid_index (Z.of_nat N) (Z.of_nat (cell_n N p q)) (cell_m N p q) /\
  slot (Z.of_nat N) (Z.of_nat (cell_n N p q)) (cell_m N p q) = (Z.of_nat p, Z.of_nat q).
Proof.
  intros Hp Hq. unfold valid_index, slot, cell_n, cell_m. destruct (Nat.leb_spec p q) as [L|L].
  - split; [lia|]. destruct (Z.leb_spec 0 (Z.of_nat p)); [reflexivity|lia].
  - split; [lia|]. destruct (Z.leb_spec 0 (Z.of_nat p - Z.of_nat N)); [lia|]. f_equal; lia.
Qed.
Definition norm2 (n : nat) (m : Z) : R := (2 * INR n + 1) / (4 * PI) * INR (fact (n - Z.abs_nat m)) / INR (fact (n + Z.abs_nat m)).
Definition sgn (m : Z) : R := if (m <? 0)%Z then (-1) ^ Z.abs_nat m else 1.
Definition good (N : nat) (xs ws : list R) lpmn (h : harmonics) : Prop :=
  nmax h = N /\ forall i p q, (p < N)%nat -> (q < N)%nat ->
  h_n h p q = Z.of_nat (cell_n N p q) /\ h_m h p q = cell_m N p q /\
  ptmn h i p q = sqrt (norm2 (cell_n N p q) (cell_m N p q)) * sgn (cell_m N p q) * lpmn (nth i xs 0) (Z.abs_nat (cell_m N p q)) (cell_n N p q) /\
  ptmnw h i p q = ptmn h i p q * (nth i ws 0 * PI / INR N).
Lemma init_spec p_roots lpmn ipow junk N xs ws : p_roots N = Ok (xs, ws) -> signs ipow ->
  exists h, harmonics_init p_roots lpmn ipow junk N = Ok h /\ good N xs ws lpmn h.
Proof.
  intros Hr Hi. unfold harmonics_init. rewrite Hr. cbn [bind fst snd].
  set (e := fun pq : nat * nat => (if snd (fill (indices (Z.of_nat N)) junk (fst pq) (snd pq)) <? 0 then snd (fill (indices (Z.of_nat N)) junk (fst pq) (snd pq)) else 0)%Z).
  rewrite (collect_all_ok _ (fun pq => (-1) ^ Z.abs_nat (e pq))).
  2:{ intros pq _. unfold e at 1. apply Hi. destruct (Z.ltb_spec (snd (fill (indices (Z.of_nat N)) junk (fst pq) (snd pq))) 0); lia. }
  cbn [bind]. eexists. split; [reflexivity|]. split; [reflexivity|]. intros i p q Hp Hq. cbn [h_n h_m ptmn ptmnw].
  destruct (cell_valid N p q Hp Hq) as [V S]. assert (F := fill_spec N junk p q _ _ Hp Hq V S). rewrite F. cbn [fst snd]. split; [reflexivity|]. split; [reflexivity|]. split; [|reflexivity].
  assert (E : nth (p * N + q) (map (fun pq => (-1) ^ Z.abs_nat (e pq)) (list_prod (seq 0 N) (seq 0 N))) 0 = sgn (cell_m N p q)).
  { rewrite (nth_indep _ 0 ((-1) ^ Z.abs_nat (e (0%nat, 0%nat)))) by (rewrite map_length, prod_length, seq_length; nia). rewrite (map_nth (fun pq => (-1) ^ Z.abs_nat (e pq))).
    assert (L := nth_prod (seq 0 N) (seq 0 N) p q 0%nat 0%nat). rewrite !seq_length in L. rewrite L by assumption. rewrite !seq_nth by assumption. cbn [Nat.add]. unfold e, sgn. cbn [fst snd]. rewrite F. cbn [snd]. destruct (Z.ltb_spec (cell_m N p q) 0); [reflexivity|]. cbn. reflexivity. }
  rewrite E. rewrite Nat2Z.id. f_equal. f_equal. f_equal. unfold norm2. rewrite <- INR_IZR_INZ. destruct V as [V1 V2]. set (n := cell_n N p q) in *. set (m := cell_m N p q) in *. replace (Z.to_nat (Z.of_nat n - Z.abs m)) with (n - Z.abs_nat m)%nat by lia. replace (Z.to_nat (Z.of_nat n + Z.abs m)) with (n + Z.abs_nat m)%nat by lia. reflexivity.
Qed.
(** ** orthonormality of the tables *)
Lemma sum_R_scal {A} (l : list A) c f : sumR (map (fun a => c * f a) l) = c * sumR (map f l).
Proof. induction l as [|a l IH]; cbn [map sumR]; [ring|rewrite IH; ring]. Qed.
Lemma norm2_pos n m : 0 < norm2 n m.
Proof.
  unfold norm2. pose proof PI_RGT_0. pose proof (INR_fact_lt_0 (n - Z.abs_nat m)). pose proof (INR_fact_lt_0 (n + Z.abs_nat m)). pose proof (pos_INR n).
  apply Rdiv_lt_0_compat; [|assumption]. apply Rmult_lt_0_compat; [|assumption]. apply Rdiv_lt_0_compat; lra.
Qed.
Lemma sgn_sq m : sgn m * sgn m = 1.
Proof. unfold sgn. destruct (m <? 0)%Z; [|ring]. rewrite <- Rpow_mult_distr. replace (-1 * -1) with 1 by ring. apply pow1. Qed.
Lemma tables_orthonormal N xs ws lpmn h p q q' : good N xs ws lpmn h -> exact_quadrature N xs ws lpmn -> (p < N)%nat -> (q < N)%nat -> (q' < N)%nat ->
  (p <=? q)%nat = (p <=? q')%nat ->
  sumR (map (fun i => nth i ws 0 * ptmn h i p q * ptmn h i p q') (seq 0 N)) = if Nat.eqb q q' then / (2 * PI) else 0.
Proof.
  intros [G1 G2] (Lx & Lw & Q) Hp Hq Hq' Side. destruct (cell_valid N p q Hp Hq) as [[V1 V2] _]. destruct (cell_valid N p q' Hp Hq') as [[V1' V2'] _].
  assert (Em : cell_m N p q' = cell_m N p q) by (unfold cell_m; now rewrite Side). rewrite Em in *. set (m := cell_m N p q) in *. set (n := cell_n N p q) in *. set (n' := cell_n N p q') in *.
  transitivity (sumR (map (fun i => sqrt (norm2 n m) * sqrt (norm2 n' m) * (nth i ws 0 * lpmn (nth i xs 0) (Z.abs_nat m) n * lpmn (nth i xs 0) (Z.abs_nat m) n')) (seq 0 N))).
  { f_equal. apply map_ext. intros i. destruct (G2 i p q Hp Hq) as (_ & _ & -> & _). destruct (G2 i p q' Hp Hq') as (_ & _ & -> & _). rewrite Em. fold m n n'. transitivity (sqrt (norm2 n m) * sqrt (norm2 n' m) * (sgn m * sgn m) * (nth i ws 0 * lpmn (nth i xs 0) (Z.abs_nat m) n * lpmn (nth i xs 0) (Z.abs_nat m) n')); [ring|]. rewrite sgn_sq. ring. }
  rewrite sum_R_scal, Q by lia.
  assert (Enn : Nat.eqb n n' = Nat.eqb q q').
  { unfold n, n', cell_n. rewrite <- Side. destruct (p <=? q)%nat; [reflexivity|]. destruct (Nat.eqb_spec q q') as [->|]; [apply Nat.eqb_refl|]. apply Nat.eqb_neq. lia. }
  rewrite Enn. destruct (Nat.eqb_spec q q') as [E|E]; [|ring]. assert (n' = n) as -> by (unfold n', n; now rewrite E). rewrite sqrt_sqrt by (left; apply norm2_pos). unfold norm2.
  pose proof PI_RGT_0. pose proof (INR_fact_lt_0 (n - Z.abs_nat m)). pose proof (INR_fact_lt_0 (n + Z.abs_nat m)). pose proof (pos_INR n). field. repeat split; lra.
Qed.
(** ** analysis after synthesis *)
Lemma has_shape_iff (a : list (list C)) r c : has_shape a r c = true <-> shape2 a r c.
Proof.
  unfold has_shape, shape2. rewrite andb_true_iff, Nat.eqb_eq, forallb_forall, List.Forall_forall. split; intros [H K]; (split; [exact H|]); intros x Hx; apply Nat.eqb_eq; auto.
Qed.
Lemma tab_shape {A} n m (f : nat -> nat -> A) : shape2 (tab n (fun p => tab m (f p))) n m.
Proof. split; [apply len_tab|]. apply List.Forall_forall. intros x Hx. unfold tab in Hx at 1. apply in_map_iff in Hx as (p & <- & _). apply len_tab. Qed.
Lemma at2_tab n m f p q : (p < n)%nat -> (q < m)%nat -> at2 (tab n (fun p => tab m (f p))) p q = f p q.
Proof. intros Hp Hq. unfold at2. rewrite nth_tab by exact Hp. now rewrite nth_tab. Qed.
Definition bins (h : harmonics) (a : list (list C)) (i : nat) : list C :=
  let N := nmax h in
  tab N (fun p => csum (seq 0 N) (fun q => if (p <=? q)%nat then Cmult (RtoC (ptmn h i p q)) (at2 a p q) else RtoC 0)) ++
  tab N (fun p => csum (seq 0 N) (fun q => if (q <? p)%nat then Cmult (RtoC (ptmn h i p q)) (at2 a p q) else RtoC 0)).
Lemma synthesis_rows h a : shape2 a (nmax h) (nmax h) -> synthesis h a = Ok (tab (nmax h) (fun i => map (fun z => Cmult (Cmult z (RtoC (INR (nmax h)))) (RtoC 2)) (ifft (bins h a i)))).
Proof. intros H. apply has_shape_iff in H. unfold synthesis. now rewrite H. Qed.
Lemma bins_len h a i : length (bins h a i) = (2 * nmax h)%nat.
Proof. unfold bins. rewrite app_length, !len_tab. lia. Qed.
Definition bin (N p q : nat) : nat := if (p <=? q)%nat then p else (N + p)%nat.
Lemma bins_at h a i p q : (p < nmax h)%nat -> (q < nmax h)%nat ->
  nth (bin (nmax h) p q) (bins h a i) (RtoC 0) = csum (seq 0 (nmax h)) (fun q' => if Bool.eqb (p <=? q)%nat (p <=? q')%nat then Cmult (RtoC (ptmn h i p q')) (at2 a p q') else RtoC 0).
Proof.
  intros Hp Hq. unfold bins, bin. destruct (Nat.leb_spec p q) as [L|L].
  - rewrite app_nth1 by (rewrite len_tab; exact Hp). rewrite nth_tab by exact Hp. apply csum_ext. intros q' _. destruct (p <=? q')%nat; reflexivity.
  - rewrite app_nth2 by (rewrite len_tab; lia). rewrite len_tab. replace (nmax h + p - nmax h)%nat with p by lia. rewrite nth_tab by exact Hp. apply csum_ext. intros q' _. rewrite Nat.ltb_antisym. destruct (p <=? q')%nat; reflexivity.
Qed.
Lemma RtoC_sum (l : list nat) f : csum l (fun i => RtoC (f i)) = RtoC (sumR (map f l)).
Proof. induction l as [|i l IH]; [reflexivity|]. rewrite csum_cons, IH. cbn [map sumR]. now rewrite RtoC_plus. Qed.
Lemma round_trip N xs ws lpmn h a : good N xs ws lpmn h -> exact_quadrature N xs ws lpmn -> shape2 a N N ->
  exists f, synthesis h a = Ok f /\ shape2 f N (2 * N) /\ analysis h f = Ok a.
Proof.
  intros G Q Sa. assert (EN : nmax h = N) by apply G. rewrite synthesis_rows by (rewrite EN; exact Sa). rewrite EN. eexists. split; [reflexivity|].
  assert (Sf : shape2 (tab N (fun i => map (fun z => Cmult (Cmult z (RtoC (INR N))) (RtoC 2)) (ifft (bins h a i)))) N (2 * N)).
  { split; [apply len_tab|]. apply List.Forall_forall. intros x Hx. unfold tab in Hx at 1. apply in_map_iff in Hx as (i & <- & _). rewrite map_length. unfold ifft. rewrite len_tab, bins_len, EN. reflexivity. }
  split; [exact Sf|]. unfold analysis. rewrite EN. apply has_shape_iff in Sf. rewrite Sf. f_equal.
  destruct Sa as [La Fa]. rewrite List.Forall_forall in Fa.
  apply (nth_ext _ _ [] []); [rewrite len_tab; congruence|]. intros p Hp. rewrite len_tab in Hp. rewrite nth_tab by exact Hp. assert (Lp : length (nth p a []) = N) by (apply Fa, nth_In; lia).
  apply (nth_ext _ _ (RtoC 0) (RtoC 0)); [rewrite len_tab; congruence|]. intros q Hq. rewrite len_tab in Hq. rewrite nth_tab by exact Hq. fold (at2 a p q).
  assert (G' := G). destruct G' as [_ G2]. destruct (G2 0%nat p q Hp Hq) as (_ & -> & _).
  assert (Ek : Z.to_nat (if (cell_m N p q <? 0)%Z then (cell_m N p q + Z.of_nat (2 * N))%Z else cell_m N p q) = bin N p q).
  { unfold cell_m, bin. destruct (Nat.leb_spec p q); [destruct (Z.ltb_spec (Z.of_nat p) 0); lia|destruct (Z.ltb_spec (Z.of_nat p - Z.of_nat N) 0); lia]. }
  rewrite Ek. assert (N0 : INR N <> 0) by (apply not_0_INR; lia). assert (Bl : (bin N p q < 2 * N)%nat) by (unfold bin; destruct (p <=? q)%nat; lia).
  transitivity (csum (seq 0 N) (fun i => csum (seq 0 N) (fun q' => if Bool.eqb (p <=? q)%nat (p <=? q')%nat then Cmult (Cmult (RtoC (2 * PI)) (RtoC (nth i ws 0 * ptmn h i p q * ptmn h i p q'))) (at2 a p q') else RtoC 0))).
  { apply csum_ext. intros i Hi. apply in_seq in Hi. destruct (G2 i p q Hp Hq) as (_ & _ & _ & ->). unfold at2 at 1. rewrite (nth_indep _ [] (fft [])) by (rewrite map_length, len_tab; lia). rewrite (map_nth fft), nth_tab by lia.
    rewrite (map_ext _ (fun z => Cmult (RtoC (2 * INR N)) z)). 2:{ intros z. rewrite RtoC_mult. ring. }
    rewrite fft_scale, fft_ifft by (rewrite bins_len, EN; exact Bl). assert (B := bins_at h a i p q). rewrite EN in B. rewrite B by assumption. rewrite <- !csum_scal. apply csum_ext. intros q' _. destruct (Bool.eqb _ _); [|ring].
    rewrite Cmult_assoc, <- RtoC_mult, Cmult_assoc, <- !RtoC_mult. f_equal. f_equal. field. exact N0. }
  rewrite csum_swap. transitivity (csum (seq 0 N) (fun q' => if Nat.eqb q' q then at2 a p q' else RtoC 0)); [|now rewrite csum_single].
  apply csum_ext. intros q' Hq'. apply in_seq in Hq'. destruct (Bool.eqb (p <=? q)%nat (p <=? q')%nat) eqn:Side.
  - apply Bool.eqb_prop in Side. rewrite (csum_ext _ _ (fun i => Cmult (Cmult (RtoC (2 * PI)) (at2 a p q')) (RtoC (nth i ws 0 * ptmn h i p q * ptmn h i p q')))) by (intros; ring). rewrite csum_scal, RtoC_sum.
    rewrite (tables_orthonormal N xs ws lpmn h p q q' G Q Hp Hq) by (try assumption; lia). rewrite (Nat.eqb_sym q'). destruct (Nat.eqb q q'); [|ring].
    assert (K : Cmult (RtoC (2 * PI)) (RtoC (/ (2 * PI))) = RtoC 1) by (rewrite <- RtoC_mult; f_equal; pose proof PI_RGT_0; field; lra).
    transitivity (Cmult (Cmult (RtoC (2 * PI)) (RtoC (/ (2 * PI)))) (at2 a p q')); [ring|]. rewrite K. ring.
  - destruct (Nat.eqb_spec q' q) as [->|]; [rewrite Bool.eqb_reflx in Side; discriminate|]. apply csum_zero. reflexivity.
Qed.
(** ** what synthesis and analysis compute *)
Lemma csum_perm {A} (l m : list A) (f : A -> C) : Permutation l m -> csum l f = csum m f.
Proof.
  induction 1 as [|a l m _ IH|a b l|l m n _ IH1 _ IH2]; [reflexivity|rewrite !csum_cons, IH; reflexivity|rewrite !csum_cons; ring|congruence].
Qed.
Lemma csum_prod {A B} (l : list A) (m : list B) (f : A -> B -> C) : csum (list_prod l m) (fun pq => f (fst pq) (snd pq)) = csum l (fun p => csum m (fun q => f p q)).
Proof.
  induction l as [|a l IH]; [reflexivity|]. cbn [list_prod]. rewrite csum_app, csum_cons, IH, csum_map. reflexivity.
Qed.
Definition place (N : nat) (nm : nat * Z) : nat * nat :=
  (Z.to_nat (fst (slot (Z.of_nat N) (Z.of_nat (fst nm)) (snd nm))), Z.to_nat (snd (slot (Z.of_nat N) (Z.of_nat (fst nm)) (snd nm)))).
Lemma all_nm_in N n m : In (n, m) (all_nm N) <-> valid_index (Z.of_nat N) (Z.of_nat n) m.
Proof.
  unfold all_nm, valid_index. rewrite in_flat_map. split.
  - intros (n' & Hn & H). apply in_seq in Hn. apply in_map_iff in H as (m' & [= <- <-] & H). apply zrange_in in H. lia.
  - intros H. exists n. split; [apply in_seq; lia|]. apply in_map_iff. exists m. split; [reflexivity|apply zrange_in; lia].
Qed.
Lemma all_nm_nodup N : NoDup (all_nm N).
Proof.
  unfold all_nm. apply nodup_flat; [apply seq_NoDup| |].
  - intros n _. apply nodup_map_in; [apply zrange_nodup|]. intros a b _ _ [= H]. exact H.
  - intros n n' x _ _ H K. apply in_map_iff in H as (m & <- & _). apply in_map_iff in K as (m' & [= E _] & _). congruence.
Qed.
Lemma place_cell N n m : valid_index (Z.of_nat N) (Z.of_nat n) m -> let '(p, q) := place N (n, m) in (p < N)%nat /\ (q < N)%nat /\ cell_n N p q = n /\ cell_m N p q = m.
Proof.
  intros V. unfold place. cbn [fst snd]. destruct (slot_range _ _ _ V) as [[A B] [C' D]]. set (p := Z.to_nat (fst (slot (Z.of_nat N) (Z.of_nat n) m))). set (q := Z.to_nat (snd (slot (Z.of_nat N) (Z.of_nat n) m))).
  assert (Hp : (p < N)%nat) by (unfold p; lia). assert (Hq : (q < N)%nat) by (unfold q; lia). split; [exact Hp|]. split; [exact Hq|]. destruct (cell_valid N p q Hp Hq) as [V' S'].
  destruct (slot_inj _ _ _ _ _ V' V) as [E1 E2].
  { rewrite S'. unfold p, q. rewrite !Z2Nat.id by lia. now destruct (slot _ _ _). }
  split; [lia|exact E2].
Qed.
Lemma place_perm N : Permutation (list_prod (seq 0 N) (seq 0 N)) (map (place N) (all_nm N)).
Proof.
  apply NoDup_Permutation.
  - assert (P : forall (l m : list nat), NoDup l -> NoDup m -> NoDup (list_prod l m)).
    { intros l m Hl Hm. induction Hl as [|a l Ha _ IH]; [constructor|]. cbn [list_prod]. apply nodup_app; [apply nodup_map_in; [exact Hm|intros x y _ _ [= E]; exact E]|exact IH|].
      intros x Hx Hx'. apply in_map_iff in Hx as (y & <- & _). apply in_prod_iff in Hx' as [Hx' _]. contradiction. }
    apply P; apply seq_NoDup.
  - apply nodup_map_in; [apply all_nm_nodup|]. intros [n m] [n' m'] H H' E. apply all_nm_in in H, H'. apply place_cell in H, H'. rewrite E in H. destruct (place N (n', m')) as [p q]. destruct H as (_ & _ & <- & <-). destruct H' as (_ & _ & <- & <-). reflexivity.
  - intros [p q]. rewrite in_prod_iff, !in_seq, in_map_iff. split.
    + intros [Hp Hq]. destruct (cell_valid N p q) as [V S]; [lia|lia|]. exists (cell_n N p q, cell_m N p q). split; [|apply all_nm_in; exact V]. unfold place. cbn [fst snd]. rewrite S. cbn [fst snd]. now rewrite !Nat2Z.id.
    + intros ([n m] & E & H). apply all_nm_in, place_cell in H. rewrite E in H. lia.
Qed.
Lemma csum_cells N (f : nat -> nat -> C) : csum (seq 0 N) (fun p => csum (seq 0 N) (fun q => f p q)) = csum (all_nm N) (fun nm => f (fst (place N nm)) (snd (place N nm))).
Proof. rewrite <- csum_prod. rewrite (csum_perm _ _ _ (place_perm N)), csum_map. reflexivity. Qed.
Lemma bin_cis N p q j : (0 < N)%nat -> cis (2 * PI * INR j * INR (bin N p q) / INR (2 * N)) = cis (IZR (cell_m N p q) * (PI * INR j / INR N)).
Proof.
  intros H. assert (N0 : INR N <> 0) by (apply not_0_INR; lia). rewrite mult_INR. unfold bin, cell_m. destruct (p <=? q)%nat.
  - f_equal. rewrite <- INR_IZR_INZ. simpl (INR 2). field. exact N0.
  - rewrite plus_INR, minus_IZR, <- !INR_IZR_INZ. simpl (INR 2). replace (2 * PI * INR j * (INR N + INR p) / ((1 + 1) * INR N)) with ((INR p - INR N) * (PI * INR j / INR N) + 2 * PI * INR j) by (field; exact N0). rewrite cis_add, cis_period_nat. ring.
Qed.
Lemma synthesis_sum N xs ws lpmn h a : good N xs ws lpmn h -> shape2 a N N ->
  exists f, synthesis h a = Ok f /\ shape2 f N (2 * N) /\
  forall i j, (i < N)%nat -> (j < 2 * N)%nat -> at2 f i j =
    csum (all_nm N) (fun nm => Cmult (coefficient N a (fst nm) (snd nm)) (Ynm lpmn (fst nm) (snd nm) (nth i xs 0) (PI * INR j / INR N))).
Proof.
  intros G Sa. assert (EN : nmax h = N) by apply G. rewrite synthesis_rows by (rewrite EN; exact Sa). rewrite EN. eexists. split; [reflexivity|].
  split. { split; [apply len_tab|]. apply List.Forall_forall. intros x Hx. unfold tab in Hx at 1. apply in_map_iff in Hx as (i & <- & _). rewrite map_length. unfold ifft. rewrite len_tab, bins_len, EN. reflexivity. }
  intros i j Hi Hj. assert (N0 : INR N <> 0) by (apply not_0_INR; lia). unfold at2 at 1. rewrite nth_tab by exact Hi.
  rewrite (nth_indep _ (RtoC 0) ((fun z => Cmult (Cmult z (RtoC (INR N))) (RtoC 2)) (RtoC 0))) by (rewrite map_length; unfold ifft; rewrite len_tab, bins_len, EN; exact Hj). rewrite (map_nth (fun z => Cmult (Cmult z (RtoC (INR N))) (RtoC 2))).
  unfold ifft. rewrite bins_len, EN, nth_tab by exact Hj.
  transitivity (csum (seq 0 N) (fun p => csum (seq 0 N) (fun q => Cmult (Cmult (RtoC (ptmn h i p q)) (at2 a p q)) (cis (2 * PI * INR j * INR (bin N p q) / INR (2 * N)))))).
  { set (w := fun k => cis (2 * PI * INR j * INR k / INR (2 * N))).
    assert (E : csum (seq 0 (2 * N)) (fun k => Cmult (nth k (bins h a i) (RtoC 0)) (w k)) = csum (seq 0 N) (fun p => Cplus (Cmult (nth p (bins h a i) (RtoC 0)) (w p)) (Cmult (nth (N + p) (bins h a i) (RtoC 0)) (w (N + p)%nat)))).
    { replace (2 * N)%nat with (N + N)%nat by lia. rewrite seq_app, csum_app, csum_plus. f_equal. cbn [Nat.add]. assert (Sh : seq N N = map (fun p => N + p)%nat (seq 0 N)) by (rewrite <- (Nat.add_0_r N) at 1; generalize 0%nat; generalize N at 2 4; intros k; induction k as [|k IH]; intros s; [reflexivity|]; cbn [seq map]; rewrite <- plus_n_Sm || idtac; f_equal; rewrite <- IH; f_equal; lia). rewrite Sh, csum_map. reflexivity. }
    fold w. change (fun k => Cmult (nth k (bins h a i) (RtoC 0)) (cis (2 * PI * INR j * INR k / INR (2 * N)))) with (fun k => Cmult (nth k (bins h a i) (RtoC 0)) (w k)). rewrite E.
    transitivity (csum (seq 0 N) (fun p => Cplus (Cmult (nth p (bins h a i) (RtoC 0)) (w p)) (Cmult (nth (N + p) (bins h a i) (RtoC 0)) (w (N + p)%nat)))).
    { assert (K : Cmult (Cmult (RtoC (/ INR (2 * N))) (RtoC (INR N))) (RtoC 2) = RtoC 1) by (rewrite <- !RtoC_mult; f_equal; rewrite mult_INR; simpl (INR 2); field; exact N0).
      match goal with |- Cmult (Cmult (Cmult ?x ?s) ?y) ?z = _ => transitivity (Cmult (Cmult (Cmult x y) z) s); [ring|] end. rewrite K. ring. }
    apply csum_ext. intros p Hp. apply in_seq in Hp.
    assert (E1 : nth p (bins h a i) (RtoC 0) = csum (seq 0 N) (fun q => if (p <=? q)%nat then Cmult (RtoC (ptmn h i p q)) (at2 a p q) else RtoC 0)).
    { unfold bins. rewrite EN. rewrite app_nth1 by (rewrite len_tab; lia). now rewrite nth_tab by lia. }
    assert (E2 : nth (N + p) (bins h a i) (RtoC 0) = csum (seq 0 N) (fun q => if (q <? p)%nat then Cmult (RtoC (ptmn h i p q)) (at2 a p q) else RtoC 0)).
    { unfold bins. rewrite EN. rewrite app_nth2 by (rewrite len_tab; lia). rewrite len_tab. replace (N + p - N)%nat with p by lia. now rewrite nth_tab by lia. }
    rewrite E1, E2. rewrite (Cmult_comm _ (w p)), (Cmult_comm _ (w (N + p)%nat)), <- !csum_scal, <- csum_plus. apply csum_ext. intros q _. unfold bin. rewrite Nat.ltb_antisym. destruct (p <=? q)%nat; cbn [negb]; unfold w; ring. }
  rewrite csum_cells. apply csum_ext. intros [n m] Hnm. apply all_nm_in in Hnm. assert (Hc := place_cell N n m Hnm). unfold coefficient. cbn [fst snd].
  change (Z.to_nat (fst (slot (Z.of_nat N) (Z.of_nat n) m))) with (fst (place N (n, m))). change (Z.to_nat (snd (slot (Z.of_nat N) (Z.of_nat n) m))) with (snd (place N (n, m))).
  destruct (place N (n, m)) as [p q]. cbn [fst snd]. destruct Hc as (Hp & Hq & En & Em). rewrite bin_cis by lia. destruct G as [_ G2]. destruct (G2 i p q Hp Hq) as (_ & _ & -> & _). rewrite En, Em. unfold Ynm. fold (norm2 n m). fold (sgn m). ring.
Qed.
Lemma cis_conj t : Cconj (cis t) = cis (- t).
Proof. unfold Cconj, cis. cbn [fst snd]. now rewrite cos_neg, sin_neg. Qed.
Lemma conj_mult x y : Cconj (Cmult x y) = Cmult (Cconj x) (Cconj y).
Proof. unfold Cconj, Cmult. cbn [fst snd]. f_equal; ring. Qed.
Lemma conj_R x : Cconj (RtoC x) = RtoC x.
Proof. unfold Cconj, RtoC. cbn [fst snd]. f_equal. ring. Qed.
Lemma analysis_sum N xs ws lpmn h f : good N xs ws lpmn h -> shape2 f N (2 * N) ->
  exists a, analysis h f = Ok a /\ shape2 a N N /\
  forall n m, valid_index (Z.of_nat N) (Z.of_nat n) m -> coefficient N a n m =
    csum (seq 0 N) (fun i => csum (seq 0 (2 * N)) (fun j => Cmult (RtoC (nth i ws 0 * (PI / INR N))) (Cmult (Cconj (Ynm lpmn n m (nth i xs 0) (PI * INR j / INR N))) (at2 f i j)))).
Proof.
  intros G Sf. assert (EN : nmax h = N) by apply G. unfold analysis. rewrite EN. assert (Sf' := Sf). apply has_shape_iff in Sf'. rewrite Sf'. eexists. split; [reflexivity|]. split; [apply tab_shape|].
  intros n m V. assert (Hc := place_cell N n m V). unfold coefficient.
  change (Z.to_nat (fst (slot (Z.of_nat N) (Z.of_nat n) m))) with (fst (place N (n, m))). change (Z.to_nat (snd (slot (Z.of_nat N) (Z.of_nat n) m))) with (snd (place N (n, m))).
  destruct (place N (n, m)) as [p q]. cbn [fst snd]. destruct Hc as (Hp & Hq & En & Em). rewrite at2_tab by assumption. destruct G as [_ G2]. destruct (G2 0%nat p q Hp Hq) as (_ & -> & _).
  assert (Ek : Z.to_nat (if (cell_m N p q <? 0)%Z then (cell_m N p q + Z.of_nat (2 * N))%Z else cell_m N p q) = bin N p q).
  { unfold cell_m, bin. destruct (Nat.leb_spec p q); [destruct (Z.ltb_spec (Z.of_nat p) 0); lia|destruct (Z.ltb_spec (Z.of_nat p - Z.of_nat N) 0); lia]. }
  rewrite Ek. assert (N0 : INR N <> 0) by (apply not_0_INR; lia). assert (Bl : (bin N p q < 2 * N)%nat) by (unfold bin; destruct (p <=? q)%nat; lia).
  apply csum_ext. intros i Hi. apply in_seq in Hi. destruct (G2 i p q Hp Hq) as (_ & _ & E & ->). destruct Sf as [Lf Ff]. rewrite List.Forall_forall in Ff.
  assert (Li : length (nth i f []) = (2 * N)%nat) by (apply Ff, nth_In; lia).
  unfold at2 at 1. rewrite (nth_indep _ [] (fft [])) by (rewrite map_length; lia). rewrite (map_nth fft). unfold fft. rewrite Li, nth_tab by exact Bl. rewrite <- csum_scal. apply csum_ext. intros j _. fold (at2 f i j).
  unfold Ynm. rewrite conj_mult, conj_R, cis_conj. fold (norm2 n m). fold (sgn m).
  replace (cis (- (2 * PI * INR j * INR (bin N p q) / INR (2 * N)))) with (cis (- (IZR m * (PI * INR j / INR N)))).
  2:{ rewrite <- !cis_conj. rewrite (bin_cis N p q j) by lia. now rewrite Em. }
  rewrite E, En, Em. replace (nth i ws 0 * PI / INR N) with (nth i ws 0 * (PI / INR N)) by (field; exact N0). rewrite RtoC_mult. ring.
Qed.
(** coefficients of real data *)
Lemma real_symmetry N xs ws lpmn h f a n m : good N xs ws lpmn h -> shape2 f N (2 * N) -> (forall i j, Im (at2 f i j) = 0) -> analysis h f = Ok a ->
  valid_index (Z.of_nat N) (Z.of_nat n) m -> coefficient N a n (- m) = Cmult (RtoC ((-1) ^ Z.abs_nat m)) (Cconj (coefficient N a n m)).
Proof.
  intros G Sf Rf E V. destruct (analysis_sum N xs ws lpmn h f G Sf) as (a' & E' & _ & H). rewrite E in E'. injection E' as <-.
  assert (V' : valid_index (Z.of_nat N) (Z.of_nat n) (- m)) by (unfold valid_index in *; lia). rewrite (H n m V), (H n (- m)%Z V').
  assert (Cs : forall {A} (l : list A) (g : A -> C), Cconj (csum l g) = csum l (fun x => Cconj (g x))).
  { intros A l g. induction l as [|x l IH]; [unfold csum; cbn; apply conj_R|]. rewrite !csum_cons, <- IH. unfold Cconj, Cplus. cbn [fst snd]. f_equal. ring. }
  rewrite Cs, <- csum_scal. apply csum_ext. intros i _. rewrite Cs, <- csum_scal. apply csum_ext. intros j _. rewrite !conj_mult, conj_R.
  assert (Cf : Cconj (at2 f i j) = at2 f i j). { specialize (Rf i j). destruct (at2 f i j) as [x y]. unfold Im in Rf. cbn in Rf. subst y. unfold Cconj. cbn [fst snd]. f_equal. ring. }
  rewrite Cf. set (phi := PI * INR j / INR N). set (x := nth i xs 0).
  assert (Y : Cconj (Ynm lpmn n (- m) x phi) = Cmult (RtoC ((-1) ^ Z.abs_nat m)) (Cconj (Cconj (Ynm lpmn n m x phi)))).
  { unfold Ynm. rewrite !conj_mult, !conj_R, !cis_conj. rewrite opp_IZR. replace (- (- IZR m * phi)) with (- - (IZR m * phi)) by ring. replace (Z.abs_nat (- m)) with (Z.abs_nat m) by lia.
    assert (Sq : (-1) ^ Z.abs_nat m * (-1) ^ Z.abs_nat m = 1) by (rewrite <- Rpow_mult_distr; replace (-1 * -1) with 1 by ring; apply pow1).
    assert (F : (if (- m <? 0)%Z then (-1) ^ Z.abs_nat m else 1) = (-1) ^ Z.abs_nat m * (if (m <? 0)%Z then (-1) ^ Z.abs_nat m else 1)).
    { destruct (Z.ltb_spec (- m) 0), (Z.ltb_spec m 0); try lia; [ring|exact (eq_sym Sq)|]. replace m with 0%Z by lia. cbn. ring. }
    rewrite F, !RtoC_mult. ring. }
  rewrite Y. ring.
Qed.
Lemma orthonormal N xs ws lpmn n m n' m' : exact_quadrature N xs ws lpmn ->
  valid_index (Z.of_nat N) (Z.of_nat n) m -> valid_index (Z.of_nat N) (Z.of_nat n') m' ->
  inner N xs ws (sampled N xs lpmn n m) (sampled N xs lpmn n' m') = if (Nat.eqb n n' && Z.eqb m m')%bool then RtoC 1 else RtoC 0.
Proof.
  intros (Lx & Lw & Q) V V'. unfold valid_index in V, V'. assert (N0 : INR N <> 0) by (apply not_0_INR; lia). unfold inner, sampled.
  set (A := fun n m i => sqrt (norm2 n m) * sgn m * lpmn (nth i xs 0) (Z.abs_nat m) n).
  transitivity (csum (seq 0 N) (fun i => Cmult (csum (seq 0 (2 * N)) (fun j => cis (2 * PI * IZR (m' - m) / INR (2 * N) * INR j))) (RtoC (nth i ws 0 * (PI / INR N) * A n m i * A n' m' i)))).
  { apply csum_ext. intros i _. rewrite Cmult_comm, <- csum_scal. apply csum_ext. intros j _. unfold Ynm. fold (norm2 n m) (norm2 n' m') (sgn m) (sgn m'). rewrite conj_mult, conj_R, cis_conj.
    replace (2 * PI * IZR (m' - m) / INR (2 * N) * INR j) with (- (IZR m * (PI * INR j / INR N)) + IZR m' * (PI * INR j / INR N)) by (rewrite mult_INR, minus_IZR; simpl (INR 2); field; exact N0).
    rewrite cis_add. unfold A. rewrite !RtoC_mult. ring. }
  rewrite root_sum by lia. destruct (Z.eqb_spec m m') as [<-|D].
  - rewrite Z.sub_diag, Z.eqb_refl, Bool.andb_true_r. rewrite csum_scal, RtoC_sum.
    replace (sumR (map (fun i => nth i ws 0 * (PI / INR N) * A n m i * A n' m i) (seq 0 N))) with
      (PI / INR N * (sqrt (norm2 n m) * sqrt (norm2 n' m)) * sumR (map (fun i => nth i ws 0 * lpmn (nth i xs 0) (Z.abs_nat m) n * lpmn (nth i xs 0) (Z.abs_nat m) n') (seq 0 N))).
    2:{ rewrite <- sum_R_scal. f_equal. apply map_ext. intros i. unfold A. transitivity (PI / INR N * (sqrt (norm2 n m) * sqrt (norm2 n' m)) * (sgn m * sgn m) * (nth i ws 0 * lpmn (nth i xs 0) (Z.abs_nat m) n * lpmn (nth i xs 0) (Z.abs_nat m) n')); [rewrite sgn_sq; ring|ring]. }
    rewrite Q by lia. rewrite <- RtoC_mult. destruct (Nat.eqb_spec n n') as [<-|]; f_equal; [|ring]. rewrite sqrt_sqrt by (left; apply norm2_pos). unfold norm2. rewrite mult_INR. simpl (INR 2).
    pose proof PI_RGT_0. pose proof (INR_fact_lt_0 (n - Z.abs_nat m)). pose proof (INR_fact_lt_0 (n + Z.abs_nat m)). pose proof (pos_INR n). field. repeat split; lra.
  - destruct (Z.eqb_spec (m' - m) 0); [lia|]. rewrite Bool.andb_false_r. apply csum_zero. intros; ring.
Qed.
Lemma modern_fails p_roots lpmn ipow junk N xs ws : p_roots N = Ok (xs, ws) -> signs_modern ipow -> (2 <= N)%nat ->
  harmonics_init p_roots lpmn ipow junk N = Raise ValueError.
Proof.
  intros Hr Hi HN. unfold harmonics_init. rewrite Hr. cbn [bind fst snd].
  set (e := fun p q : nat => (if snd (fill (indices (Z.of_nat N)) junk p q) <? 0 then snd (fill (indices (Z.of_nat N)) junk p q) else 0)%Z).
  assert (X : forall l, (exists pq, In pq l /\ (e (fst pq) (snd pq) < 0)%Z) -> collect_all (map (fun pq => ipow (e (fst pq) (snd pq))) l) = Raise ValueError).
  { induction l as [|a l IH]; intros (pq & H & L); [destruct H|]. destruct H as [->|H]; cbn [map collect_all]; rewrite Hi.
    - destruct (Z.ltb_spec (e (fst pq) (snd pq)) 0); [reflexivity|lia].
    - rewrite IH by (exists pq; auto). destruct (e (fst a) (snd a) <? 0)%Z; reflexivity. }
  rewrite X; [reflexivity|]. exists ((N - 1)%nat, (N - 2)%nat). split; [apply in_prod; apply in_seq; lia|]. cbn [fst snd].
  assert (E : fill (indices (Z.of_nat N)) junk (N - 1) (N - 2) = (1, -1)%Z).
  { apply fill_spec; [lia|lia|unfold valid_index; lia|]. unfold slot. cbn [Z.leb Z.compare]. f_equal; lia. }
  unfold e. rewrite E. cbn. lia.
Qed.
(** ** from the constructor *)
Lemma init_round_trip p_roots lpmn ipow junk N xs ws a :
  p_roots N = Ok (xs, ws) -> signs ipow -> exact_quadrature N xs ws lpmn -> shape2 a N N ->
  exists h f, harmonics_init p_roots lpmn ipow junk N = Ok h /\ synthesis h a = Ok f /\ shape2 f N (2 * N) /\ analysis h f = Ok a.
Proof.
  intros Hr Hi Q Sa. destruct (init_spec p_roots lpmn ipow junk N xs ws Hr Hi) as (h & E & G). destruct (round_trip N xs ws lpmn h a G Q Sa) as (f & H). exists h, f. tauto.
Qed.
Lemma init_good p_roots lpmn ipow junk N xs ws h : p_roots N = Ok (xs, ws) -> signs ipow -> harmonics_init p_roots lpmn ipow junk N = Ok h -> good N xs ws lpmn h.
Proof. intros Hr Hi E. destruct (init_spec p_roots lpmn ipow junk N xs ws Hr Hi) as (h' & E' & G). congruence. Qed.
Lemma init_synthesis p_roots lpmn ipow junk N xs ws h a :
  p_roots N = Ok (xs, ws) -> signs ipow -> harmonics_init p_roots lpmn ipow junk N = Ok h -> shape2 a N N ->
  exists f, synthesis h a = Ok f /\ shape2 f N (2 * N) /\
  forall i j, (i < N)%nat -> (j < 2 * N)%nat ->
    at2 f i j = csum (all_nm N) (fun nm => Cmult (coefficient N a (fst nm) (snd nm)) (sampled N xs lpmn (fst nm) (snd nm) i j)).
Proof. intros Hr Hi E. apply (synthesis_sum N xs ws). eapply init_good; eassumption. Qed.
Lemma init_analysis p_roots lpmn ipow junk N xs ws h f :
  p_roots N = Ok (xs, ws) -> signs ipow -> harmonics_init p_roots lpmn ipow junk N = Ok h -> shape2 f N (2 * N) ->
  exists a, analysis h f = Ok a /\ shape2 a N N /\
  forall n m, valid_index (Z.of_nat N) (Z.of_nat n) m -> coefficient N a n m = inner N xs ws (sampled N xs lpmn n m) (at2 f).
Proof. intros Hr Hi E. apply (analysis_sum N xs ws). eapply init_good; eassumption. Qed.
Lemma init_real p_roots lpmn ipow junk N xs ws h f a n m :
  p_roots N = Ok (xs, ws) -> signs ipow -> harmonics_init p_roots lpmn ipow junk N = Ok h ->
  shape2 f N (2 * N) -> (forall i j, Im (at2 f i j) = 0) -> analysis h f = Ok a -> valid_index (Z.of_nat N) (Z.of_nat n) m ->
  coefficient N a n (- m) = Cmult (RtoC ((-1) ^ Z.abs_nat m)) (Cconj (coefficient N a n m)).
Proof. intros Hr Hi E. apply (real_symmetry N xs ws lpmn h). eapply init_good; eassumption. Qed.
Lemma shapes_refused h a f : (synthesis h a = Raise AssertionError <-> ~ shape2 a (nmax h) (nmax h)) /\
  (analysis h f = Raise AssertionError <-> ~ shape2 f (nmax h) (2 * nmax h)).
Proof.
  rewrite <- !has_shape_iff. unfold synthesis, analysis. split.
  - destruct (has_shape a (nmax h) (nmax h)); split; intros H; try discriminate; try reflexivity; try (now destruct H).
  - destruct (has_shape f (nmax h) (2 * nmax h)); split; intros H; try discriminate; try reflexivity; try (now destruct H).
Qed.
Lemma two_nodes : exact_quadrature 2 [- / sqrt 3; / sqrt 3] [1; 1]
  (fun x m n => match m, n with 0%nat, 0%nat => 1 | 0%nat, 1%nat => x | 1%nat, 1%nat => - sqrt (1 - x ^ 2) | _, _ => 0 end).
Proof.
  assert (P : 0 < sqrt 3) by (apply sqrt_lt_R0; lra). assert (X : / sqrt 3 * / sqrt 3 = 1 / 3) by (rewrite <- Rinv_mult, sqrt_sqrt by lra; lra).
  assert (Y : forall x, x ^ 2 = 1 / 3 -> sqrt (1 - x ^ 2) * sqrt (1 - x ^ 2) = 2 / 3) by (intros x Hx; rewrite sqrt_sqrt; lra).
  split; [reflexivity|]. split; [reflexivity|]. intros m n n' Hm Hn.
  destruct m as [|[|m]]; [| |lia]; destruct n as [|[|n]]; try lia; destruct n' as [|[|n']]; try lia; cbn [seq map sumR nth Nat.eqb]; try (cbn; lra).
  - replace (INR (fact (1 + 1))) with 2 by (cbn; ring). replace (INR (fact (1 - 1))) with 1 by (cbn; ring). simpl (INR 1).
    assert (Y1 := Y (/ sqrt 3)). assert (Y2 := Y (- / sqrt 3)). assert (X1 : (/ sqrt 3) ^ 2 = 1 / 3) by (rewrite <- X; ring). assert (X2 : (- / sqrt 3) ^ 2 = 1 / 3) by (rewrite <- X; ring).
    specialize (Y1 X1). specialize (Y2 X2).
    match goal with |- _ = ?v => transitivity (sqrt (1 - (- / sqrt 3) ^ 2) * sqrt (1 - (- / sqrt 3) ^ 2) + sqrt (1 - (/ sqrt 3) ^ 2) * sqrt (1 - (/ sqrt 3) ^ 2)); [ring|] end. rewrite Y1, Y2. lra.
Qed.
