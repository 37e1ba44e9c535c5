From Verif Require Import Base ModelUtils ModelField SpecField ModelGrid ProofGrid ModelPlot SpecPlot ProofPlot.
Open Scope R_scope.
Notation length := List.length.

Lemma linspace_nth a b n i : (2 <= n)%nat -> (i < n)%nat -> nth i (linspace a b n) 0 = a + INR i * ((b - a) / (INR n - 1)).
Proof.
  intros Hn Hi. destruct n as [|[|n]]; [lia|lia|]. unfold linspace. set (F := fun i : nat => a + INR i * _).
  rewrite (nth_indep _ 0 (F 0%nat)) by (now rewrite map_length, seq_length). rewrite map_nth, seq_nth by exact Hi. reflexivity.
Qed.
Lemma linspace_shape a b n : (2 <= n)%nat -> a < b ->
  length (linspace a b n) = n /\ nth 0 (linspace a b n) 0 = a /\ nth (n - 1) (linspace a b n) 0 = b /\ strictly_increasing (linspace a b n).
Proof.
  intros Hn Hab. split; [apply linspace_length|]. assert (Hp : 0 < INR n - 1) by (apply le_INR in Hn; cbn in Hn; lra).
  split; [rewrite linspace_nth by lia; cbn [INR]; lra|]. split.
  - rewrite linspace_nth by lia. rewrite minus_INR by lia. cbn [INR]. field. lra.
  - intros i Hi. rewrite linspace_length in Hi. rewrite !linspace_nth by lia. rewrite S_INR.
    assert (0 < (b - a) / (INR n - 1)) by (apply Rdiv_lt_0_compat; lra). lra.
Qed.
Lemma linspace_between a b n v : a <= b -> In v (linspace a b n) -> a <= v <= b.
Proof.
  intros Hab Hv. destruct n as [|[|n]]; [destruct Hv|destruct Hv as [<-|[]]; lra|].
  destruct (In_nth _ _ 0 Hv) as (i & Hi & <-). rewrite linspace_length in Hi. rewrite linspace_nth by lia.
  assert (Hp : 0 < INR (S (S n)) - 1) by (rewrite !S_INR; pose proof (pos_INR n); lra).
  assert (INR i <= INR (S (S n)) - 1). { replace (INR (S (S n)) - 1) with (INR (S n)) by (rewrite !S_INR; lra). apply le_INR. lia. }
  set (q := (b - a) / (INR (S (S n)) - 1)). assert (Eq : b - a = q * (INR (S (S n)) - 1)) by (unfold q; field; lra).
  assert (0 <= q) by (unfold q; apply Rmult_le_pos; [lra|left; apply Rinv_0_lt_compat; lra]).
  pose proof (pos_INR i). split; nra.
Qed.
Lemma linspace_const a n v : In v (linspace a a n) -> v = a.
Proof. intros H. apply linspace_between in H; lra. Qed.

Section Contour.
Variables (c : R) (s : list electrode) (first : option (option grid_electrode)) (gx gy gz : axis) (typ slc : string)
  (at_ : R) (fill : bool) (div : R) (num : nat) (lv : option (list R)) (vm : option R) (a b : axis) (la lb : string).
Hypothesis Hw : forall e, In e s -> well_formed (egeom e).
Hypothesis Ht : typ = "dc"%string \/ typ = "rf"%string \/ typ = "tot"%string.
Hypothesis Hs : slice_axes gx gy gz slc a b la lb.
Hypothesis Ha : (0 < ashape a)%nat.
Hypothesis Hb : (0 < ashape b)%nat.
Let call := plot_contour (Some c) s first (Some [gx; gy; gz]) typ slc at_ fill div num lv vm.

Lemma contour_shown : exists k, call = Ok k /\ filled k = fill /\ xlabel k = la /\ ylabel k = lb /\
  length (cx k) = ashape a /\ length (cy k) = ashape b /\ table (cz k) (ashape b) (ashape a) /\
  forall i j, (i < ashape a)%nat -> (j < ashape b)%nat ->
    nth i (cx k) 0 = indices_to_coordinates a (INR i) /\ nth j (cy k) 0 = indices_to_coordinates b (INR j) /\
    forall p, slice_point slc at_ (nth i (cx k) 0) (nth j (cy k) 0) p -> shown c s typ p (entry (cz k) j i).
Proof.
  destruct (contour_ok c s first gx gy gz typ slc at_ fill div num lv vm a b la lb Hw Ht Hs Ha Hb) as (f & M & m & Hf & _ & _ & E).
  unfold call. eexists. split; [exact E|]. cbn [filled xlabel ylabel cx cy cz].
  destruct (axis_list_spec a) as [La Na]. destruct (axis_list_spec b) as [Lb Nb].
  do 3 (split; [reflexivity|]). split; [exact La|]. split; [exact Lb|]. split.
  - split; [rewrite map_length; exact Lb|]. apply Forall_forall. intros r Hr. apply in_map_iff in Hr. destruct Hr as (? & <- & _).
    now rewrite map_length.
  - intros i j Hi Hj. split; [now apply Na|]. split; [now apply Nb|]. intros p Hp. rewrite (Hf _ _ _ Hp).
    rewrite (entry_map (fun u v => sv c s typ (f u v))) by (rewrite ?La, ?Lb; assumption). now apply contour_value_ok.
Qed.
Lemma contour_extrema k : call = Ok k ->
  (exists i j, (i < ashape a)%nat /\ (j < ashape b)%nat /\ entry (cz k) j i = maxp k) /\
  (exists i j, (i < ashape a)%nat /\ (j < ashape b)%nat /\ entry (cz k) j i = minp k) /\
  forall i j, (i < ashape a)%nat -> (j < ashape b)%nat -> minp k <= entry (cz k) j i <= maxp k.
Proof.
  destruct (contour_ok c s first gx gy gz typ slc at_ fill div num lv vm a b la lb Hw Ht Hs Ha Hb) as (f & M & m & _ & EM & Em & E).
  unfold call. rewrite E. intros [= <-]. cbn [maxp minp cz].
  destruct (axis_list_spec a) as [La _]. destruct (axis_list_spec b) as [Lb _].
  apply amax_ok in EM. apply amin_ok in Em. destruct EM as [IM BM], Em as [Im Bm].
  apply (in_concat_map (fun u v => sv c s typ (f u v))) in IM. apply (in_concat_map (fun u v => sv c s typ (f u v))) in Im.
  rewrite La, Lb in IM, Im. split; [|split].
  - destruct IM as (i & j & Hi & Hj & ->). exists i, j. rewrite (entry_map (fun u v => sv c s typ (f u v))) by (rewrite ?La, ?Lb; assumption). auto.
  - destruct Im as (i & j & Hi & Hj & ->). exists i, j. rewrite (entry_map (fun u v => sv c s typ (f u v))) by (rewrite ?La, ?Lb; assumption). auto.
  - intros i j Hi Hj. rewrite (entry_map (fun u v => sv c s typ (f u v))) by (rewrite ?La, ?Lb; assumption).
    assert (I : In (sv c s typ (f (nth i (axis_list a) 0) (nth j (axis_list b) 0)))
       (concat (map (fun e2 => map (fun e1 => sv c s typ (f e1 e2)) (axis_list a)) (axis_list b)))).
    { apply (in_concat_map (fun u v => sv c s typ (f u v))). exists i, j. rewrite La, Lb. auto. }
    split; [now apply Bm|now apply BM].
Qed.
Lemma contour_levels_eq k : call = Ok k ->
  levels k = match lv with Some l => l | None => linspace (minp k) (fst (levels_of (maxp k) (minp k) div)) num end /\
  vmin k = match vm with Some v => v | None => fst (levels_of (maxp k) (minp k) div) / 2 end /\
  warned k = snd (levels_of (maxp k) (minp k) div).
Proof.
  destruct (contour_ok c s first gx gy gz typ slc at_ fill div num lv vm a b la lb Hw Ht Hs Ha Hb) as (f & M & m & _ & EM & Em & E).
  unfold call. rewrite E. intros [= <-]. cbn [maxp minp levels vmin warned]. auto.
Qed.
Lemma contour_keywords k : call = Ok k -> (forall l, lv = Some l -> levels k = l) /\ (forall v, vm = Some v -> vmin k = v).
Proof. intros H. destruct (contour_levels_eq k H) as (A & B & _). split; intros ? ->; assumption. Qed.
Lemma contour_levels k : call = Ok k -> lv = None -> (2 <= num)%nat -> minp k < maxp k ->
  exists top, minp k < top /\ (maxp k / div > minp k -> top = maxp k / div /\ warned k = false) /\
    (maxp k / div <= minp k -> top = (minp k + maxp k) / 2 /\ warned k = true) /\
    length (levels k) = num /\ nth 0 (levels k) 0 = minp k /\ nth (num - 1) (levels k) 0 = top /\
    strictly_increasing (levels k) /\ (vm = None -> vmin k = top / 2).
Proof.
  intros H L N Lt. destruct (contour_levels_eq k H) as (A & B & W). rewrite L in A.
  exists (fst (levels_of (maxp k) (minp k) div)).
  assert (P : minp k < fst (levels_of (maxp k) (minp k) div)).
  { unfold levels_of. destruct (Rle_dec _ _); cbn [fst]; lra. }
  destruct (linspace_shape _ _ num N P) as (S1 & S2 & S3 & S4). rewrite A, W.
  split; [exact P|]. split; [|split].
  - intros G. unfold levels_of. destruct (Rle_dec _ _); [lra|]. auto.
  - intros G. unfold levels_of. destruct (Rle_dec _ _); [|lra]. split; [cbn [fst]; lra|reflexivity].
  - repeat (split; [assumption|]). intros Ev. rewrite Ev in B. exact B.
Qed.
Lemma contour_levels_range k : call = Ok k -> lv = None -> 1 <= div -> 0 <= maxp k ->
  forall l, In l (levels k) -> minp k <= l <= maxp k.
Proof.
  intros H L D M l Hl. destruct (contour_levels_eq k H) as (A & _). rewrite L in A. rewrite A in Hl.
  destruct (contour_extrema k H) as ((i & j & Hi & Hj & _) & _ & B). specialize (B i j Hi Hj).
  assert (Q : 0 < / div <= 1).
  { split; [apply Rinv_0_lt_compat; lra|]. rewrite <- Rinv_1. apply Rinv_le_contravar; lra. }
  assert (T : maxp k / div <= maxp k) by (unfold Rdiv; nra).
  assert (U : minp k <= fst (levels_of (maxp k) (minp k) div) <= maxp k).
  { unfold levels_of. destruct (Rle_dec _ _); cbn [fst]; lra. }
  apply linspace_between in Hl; lra.
Qed.
Lemma contour_levels_above k : call = Ok k -> lv = None -> 1 < div -> maxp k < 0 -> (2 <= num)%nat ->
  maxp k < nth (num - 1) (levels k) 0 /\ warned k = false.
Proof.
  intros H L D M N. destruct (contour_levels_eq k H) as (A & _ & W). rewrite L in A.
  destruct (contour_extrema k H) as ((i & j & Hi & Hj & _) & _ & B). specialize (B i j Hi Hj).
  assert (Q : 0 < / div < 1).
  { split; [apply Rinv_0_lt_compat; lra|]. rewrite <- Rinv_1. apply Rinv_lt_contravar; lra. }
  assert (T : maxp k < maxp k / div) by (unfold Rdiv; nra).
  assert (E : levels_of (maxp k) (minp k) div = (maxp k / div, false)). { unfold levels_of. destruct (Rle_dec _ _); [lra|reflexivity]. }
  rewrite E in A, W. cbn [fst snd] in *. split; [|exact W]. rewrite A.
  destruct (linspace_shape (minp k) (maxp k / div) num N ltac:(lra)) as (_ & _ & -> & _). exact T.
Qed.
Lemma contour_levels_constant k : call = Ok k -> lv = None -> 1 <= div -> 0 <= maxp k -> minp k = maxp k ->
  forall l, In l (levels k) -> l = minp k.
Proof.
  intros H L D M E l Hl. destruct (contour_levels_range k H L D M l Hl). lra.
Qed.
End Contour.

Lemma contour_default rf s g d more typ slc at_ fill div num lv vm : gdata g = d :: more ->
  exists ax ay az, (ashape ax = n1 d /\ ashape ay = n2 d /\ ashape az = n3 d) /\
    plot_contour rf s (Some (Some g)) None typ slc at_ fill div num lv vm =
    plot_contour rf s (Some (Some g)) (Some [ax; ay; az]) typ slc at_ fill div num lv vm /\
    forall i, indices_to_coordinates ax (INR i) = px (gorigin g) + INR i * px (gspacing g) /\
      indices_to_coordinates ay (INR i) = py (gorigin g) + INR i * py (gspacing g) /\
      indices_to_coordinates az (INR i) = pz (gorigin g) + INR i * pz (gspacing g).
Proof.
  intros H. exists (default_axis (px (gorigin g)) (px (gspacing g)) (n1 d)), (default_axis (py (gorigin g)) (py (gspacing g)) (n2 d)),
    (default_axis (pz (gorigin g)) (pz (gspacing g)) (n3 d)).
  split; [auto|]. split.
  - unfold plot_contour at 1. unfold default_grid. rewrite H. reflexivity.
  - intros i. unfold indices_to_coordinates, default_axis. cbn [acenter astep ashape]. repeat split; field.
Qed.
Lemma contour_bad_slice rf s first g typ slc at_ fill div num lv vm : slc <> "x"%string -> slc <> "y"%string -> slc <> "z"%string ->
  plot_contour rf s first (Some g) typ slc at_ fill div num lv vm = Raise KeyError.
Proof.
  intros A B C. unfold plot_contour, lookup, sec. cbn [bind find fst].
  destruct (String.eqb_spec "x" slc); [congruence|]. destruct (String.eqb_spec "y" slc); [congruence|]. destruct (String.eqb_spec "z" slc); [congruence|]. reflexivity.
Qed.
Lemma contour_no_grid rf s typ slc at_ fill div num lv vm :
  plot_contour rf s None None typ slc at_ fill div num lv vm = Raise IndexError /\
  plot_contour rf s (Some None) None typ slc at_ fill div num lv vm = Raise AttributeError.
Proof. split; reflexivity. Qed.
Lemma collect_raise {A B} (f : A -> res B) e l : l <> [] -> (forall a, In a l -> f a = Raise e) -> collect (map f l) = Raise e.
Proof. destruct l as [|a l]; [congruence|]. intros _ H. cbn. rewrite (H a (or_introl eq_refl)). reflexivity. Qed.
Lemma contour_bad_typ c s first gx gy gz typ slc at_ fill div num lv vm a b la lb : (forall e, In e s -> well_formed (egeom e)) ->
  typ <> "dc"%string -> typ <> "rf"%string -> typ <> "tot"%string ->
  slice_axes gx gy gz slc a b la lb -> (0 < ashape a)%nat -> (0 < ashape b)%nat ->
  plot_contour (Some c) s first (Some [gx; gy; gz]) typ slc at_ fill div num lv vm = Raise ValueError.
Proof.
  intros Hw T1 T2 T3 Hs Ha Hb.
  assert (V : forall p, contour_value (Some c) s typ p = Raise ValueError).
  { intros p. unfold contour_value. rewrite (ProofSys.total_bad_typ c s p 0 typ Hw ltac:(lia) T1 T2 T3). reflexivity. }
  assert (G : forall f : R -> R -> p3, collect (map (fun e2 => collect (map (fun e1 => contour_value (Some c) s typ (f e1 e2)) (axis_list a))) (axis_list b)) = Raise ValueError).
  { intros f. apply collect_raise; [intros E; pose proof (proj1 (axis_list_spec b)) as L; rewrite E in L; cbn in L; lia|].
    intros e2 _. apply collect_raise; [intros E; pose proof (proj1 (axis_list_spec a)) as L; rewrite E in L; cbn in L; lia|]. intros; apply V. }
  inversion Hs; subst; unfold plot_contour, py_index;
    cbn -[contour_value linspace collect amax amin concat label INR Rminus Rdiv Rmult Rplus];
    change (Pos.to_nat 1) with 1%nat; change (Pos.to_nat 2) with 2%nat; cbn [nth_error bind];
    fold (axis_list a) (axis_list b).
  - rewrite (G (fun u v => P3 at_ u v)). reflexivity.
  - rewrite (G (fun u v => P3 u at_ v)). reflexivity.
  - rewrite (G (fun u v => P3 u v at_)). reflexivity.
Qed.
Lemma contour_empty c s first gx gy gz typ slc at_ fill div num lv vm a b la lb : (forall e, In e s -> well_formed (egeom e)) ->
  typ = "dc"%string \/ typ = "rf"%string \/ typ = "tot"%string ->
  slice_axes gx gy gz slc a b la lb -> ashape a = 0%nat \/ ashape b = 0%nat ->
  plot_contour (Some c) s first (Some [gx; gy; gz]) typ slc at_ fill div num lv vm = Raise ValueError.
Proof.
  intros Hw Ht Hs He.
  assert (Em : forall f : R -> R -> R, concat (map (fun e2 => map (fun e1 => f e1 e2) (axis_list a)) (axis_list b)) = []).
  { intros f. destruct (concat _) as [|v l] eqn:E; [reflexivity|].
    assert (I : In v (v :: l)) by now left. rewrite <- E in I. apply in_concat_map in I. destruct I as (i & j & Hi & Hj & _).
    pose proof (proj1 (axis_list_spec a)). pose proof (proj1 (axis_list_spec b)). lia. }
  inversion Hs; subst; unfold plot_contour, py_index;
    cbn -[contour_value linspace collect amax amin concat label INR Rminus Rdiv Rmult Rplus];
    change (Pos.to_nat 1) with 1%nat; change (Pos.to_nat 2) with 2%nat; cbn [nth_error bind];
    fold (axis_list a) (axis_list b).
  - rewrite (contour_values_grid c s typ (fun u v => P3 at_ u v)) by assumption. cbn [bind]. rewrite (Em (fun u v => sv c s typ (P3 at_ u v))). reflexivity.
  - rewrite (contour_values_grid c s typ (fun u v => P3 u at_ v)) by assumption. cbn [bind]. rewrite (Em (fun u v => sv c s typ (P3 u at_ v))). reflexivity.
  - rewrite (contour_values_grid c s typ (fun u v => P3 u v at_)) by assumption. cbn [bind]. rewrite (Em (fun u v => sv c s typ (P3 u v at_))). reflexivity.
Qed.
