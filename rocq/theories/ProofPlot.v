From Verif Require Import Base ModelUtils ModelField SpecField ModelGrid ProofGrid ProofCons ProofField ProofSys ModelPlot SpecPlot.
Open Scope R_scope.
Notation length := List.length.

(** ** plot *)
Lemma zip_cycle_nth {E C} (table : list C) (dE : E) (dC : C) (s : list E) : table <> [] -> forall done rest,
  table = done ++ rest ->
  length (zip_cycle s table rest) = length s /\
  forall i, (i < length s)%nat -> nth i (zip_cycle s table rest) (dE, dC) =
    (nth i s dE, nth ((length done + i) mod length table) table dC).
Proof.
  intros Ht. induction s as [|e s IH]; intros done rest HT; [split; [reflexivity|cbn; lia]|].
  assert (Lp : length table <> 0%nat) by (destruct table; [congruence|discriminate]).
  destruct rest as [|c rest].
  - rewrite app_nil_r in HT. assert (exists c table', table = c :: table') as (c & table' & ET) by (destruct table; [congruence|eauto]).
    assert (EZ : zip_cycle (e :: s) table [] = (e, c) :: zip_cycle s table table') by (cbn [zip_cycle]; rewrite ET; reflexivity).
    rewrite EZ. destruct (IH [c] table' ltac:(rewrite ET; reflexivity)) as [L N].
    split; [cbn [length]; f_equal; exact L|]. intros [|i] Hi.
    + cbn [nth]. f_equal. rewrite Nat.add_0_r. rewrite <- HT, Nat.mod_same by exact Lp. now rewrite ET.
    + cbn [nth]. rewrite N by (cbn in Hi; lia). f_equal. f_equal. cbn [length].
      rewrite <- HT. replace (length table + S i)%nat with (1 + i + 1 * length table)%nat by lia. rewrite Nat.mod_add by exact Lp. reflexivity.
  - cbn [zip_cycle]. destruct (IH (done ++ [c]) rest ltac:(rewrite <- app_assoc; exact HT)) as [L N].
    split; [cbn [length]; f_equal; exact L|]. intros [|i] Hi.
    + cbn [nth]. f_equal. rewrite Nat.add_0_r.
      assert (length done < length table)%nat by (rewrite HT, app_length; cbn; lia). rewrite Nat.mod_small by assumption.
      rewrite HT, app_nth2, Nat.sub_diag by lia. reflexivity.
    + cbn [nth]. rewrite N by (cbn in Hi; lia). f_equal. f_equal. rewrite app_length. cbn [length]. f_equal. lia.
Qed.
Lemma plot_calls {E} (d : E) (s : list E) alpha :
  length (plot s alpha) = length s /\
  forall i, (i < length s)%nat -> nth_error (plot s alpha) i =
    Some (nth i s d, scale255 (nth (i mod 12) set3 (0, 0, 0)%Z), alpha).
Proof.
  destruct (zip_cycle_nth set3 d (0, 0, 0)%Z s ltac:(discriminate) [] set3 eq_refl) as [L N].
  unfold plot. rewrite map_length. split; [exact L|]. intros i Hi. rewrite nth_error_map.
  rewrite (nth_error_nth' _ (d, (0, 0, 0)%Z)) by (rewrite L; exact Hi). rewrite N by exact Hi. reflexivity.
Qed.
Lemma scale255_spec r g b x y z : scale255 (r, g, b) = (x, y, z) -> 255 * x = IZR r /\ 255 * y = IZR g /\ 255 * z = IZR b.
Proof. intros H. injection H as <- <- <-. repeat split; field. Qed.
Lemma set3_range i : let '(r, g, b) := scale255 (nth i set3 (0, 0, 0)%Z) in 0 <= r <= 1 /\ 0 <= g <= 1 /\ 0 <= b <= 1.
Proof.
  do 12 (destruct i as [|i]; [cbn; lra|]). destruct i; cbn; lra.
Qed.
Lemma set3_distinct i j : (i < 12)%nat -> (j < 12)%nat ->
  scale255 (nth i set3 (0, 0, 0)%Z) = scale255 (nth j set3 (0, 0, 0)%Z) -> i = j.
Proof.
  intros Hi Hj H.
  assert (HN : NoDup set3).
  { unfold set3. repeat constructor; cbn; intuition congruence. }
  apply (proj1 (NoDup_nth set3 (0, 0, 0)%Z) HN); [exact Hi|exact Hj|].
  destruct (nth i set3 _) as [[a b] c], (nth j set3 _) as [[a' b'] c']. cbn in H. injection H as H1 H2 H3.
  apply Rmult_eq_reg_r in H1; [|lra]. apply Rmult_eq_reg_r in H2; [|lra]. apply Rmult_eq_reg_r in H3; [|lra].
  apply eq_IZR in H1, H2, H3. congruence.
Qed.

(** ** extrema *)
Lemma fold_max l : forall x, (forall y, In y (x :: l) -> y <= fold_left Rmax l x) /\ In (fold_left Rmax l x) (x :: l).
Proof.
  induction l as [|a l IH]; intros x; cbn [fold_left].
  - split; [intros y [<-|[]]; lra|now left].
  - destruct (IH (Rmax x a)) as [B I]. split.
    + intros y [<-|[<-|Hy]].
      * apply Rle_trans with (Rmax x a); [apply Rmax_l|apply B; now left].
      * apply Rle_trans with (Rmax x a); [apply Rmax_r|apply B; now left].
      * apply B. now right.
    + destruct I as [I|I]; [|right; now right]. rewrite <- I. unfold Rmax. destruct (Rle_dec x a); [right; now left|now left].
Qed.
Lemma fold_min l : forall x, (forall y, In y (x :: l) -> fold_left Rmin l x <= y) /\ In (fold_left Rmin l x) (x :: l).
Proof.
  induction l as [|a l IH]; intros x; cbn [fold_left].
  - split; [intros y [<-|[]]; lra|now left].
  - destruct (IH (Rmin x a)) as [B I]. split.
    + intros y [<-|[<-|Hy]].
      * apply Rle_trans with (Rmin x a); [apply B; now left|apply Rmin_l].
      * apply Rle_trans with (Rmin x a); [apply B; now left|apply Rmin_r].
      * apply B. now right.
    + destruct I as [I|I]; [|right; now right]. rewrite <- I. unfold Rmin. destruct (Rle_dec x a); [now left|right; now left].
Qed.
Lemma amax_ok l m : amax l = Ok m -> In m l /\ forall y, In y l -> y <= m.
Proof. destruct l as [|x l]; [discriminate|]. cbn [amax]. intros [= <-]. destruct (fold_max l x). auto. Qed.
Lemma amin_ok l m : amin l = Ok m -> In m l /\ forall y, In y l -> m <= y.
Proof. destruct l as [|x l]; [discriminate|]. cbn [amin]. intros [= <-]. destruct (fold_min l x). auto. Qed.

(** ** plot_voltages *)
Lemma peak_unique u a b : peak u a -> peak u b -> a = b.
Proof. intros [(x & Hx & ->) Ba] [(y & Hy & ->) Bb]. apply Rle_antisym; auto. Qed.
Lemma amax_peak u : u <> [] -> exists m, amax (map Rabs u) = Ok m /\ peak u m.
Proof.
  intros Hu. destruct (amax (map Rabs u)) as [m|e] eqn:E; [|destruct u; [congruence|discriminate]].
  exists m. split; [reflexivity|]. apply amax_ok in E. destruct E as [I B]. apply in_map_iff in I. destruct I as (x & <- & Hx).
  split; [eauto|]. intros y Hy. apply B. now apply in_map.
Qed.
Lemma voltages_given {E Col} (s : list E) dcs u um (cmap : R -> Col) i e v :
  nth_error s i = Some e -> nth_error (default_u dcs u) i = Some v ->
  exists l, plot_voltages s dcs u (Some um) cmap = Ok l /\ length l = Nat.min (length s) (length (default_u dcs u)) /\
    nth_error l i = Some (e, cmap (1 / 2 + v / um / 2)).
Proof.
  intros He Hv. unfold plot_voltages. fold (default_u dcs u). cbv zeta. cbn [bind]. eexists. split; [reflexivity|].
  split; [now rewrite combine_length, !map_length|]. rewrite map_map.
  revert i He Hv. generalize (default_u dcs u). clear. intros us. revert us.
  induction s as [|a s IH]; intros [|w us] [|i] He Hv; try discriminate.
  - cbn in *. injection He as ->. injection Hv as ->. do 3 f_equal. lra.
  - cbn [map combine nth_error] in *. now apply IH.
Qed.
Lemma voltages_default {E Col} (s : list E) dcs u (cmap : R -> Col) m : default_u dcs u <> [] -> peak (default_u dcs u) m ->
  plot_voltages s dcs u None cmap = plot_voltages s dcs u (Some (if Req_EM_T m 0 then 1 else m)) cmap.
Proof.
  intros Hu Hp. unfold plot_voltages. fold (default_u dcs u). cbv zeta. destruct (amax_peak _ Hu) as (m' & E' & P').
  rewrite E'. cbn [bind]. rewrite (peak_unique _ _ _ P' Hp). reflexivity.
Qed.
Lemma voltages_empty {E Col} (s : list E) dcs u (cmap : R -> Col) : default_u dcs u = [] -> plot_voltages s dcs u None cmap = Raise ValueError.
Proof. intros H. unfold plot_voltages. fold (default_u dcs u). cbv zeta. rewrite H. reflexivity. Qed.

Lemma voltages_shade {E Col} (s : list E) dcs u (cmap : R -> Col) i e v :
  nth_error s i = Some e -> nth_error (default_u dcs u) i = Some v ->
  exists l h, plot_voltages s dcs u None cmap = Ok l /\ nth_error l i = Some (e, cmap h) /\ shade (default_u dcs u) v h.
Proof.
  intros He Hv. assert (Hu : default_u dcs u <> []) by (intros E0; rewrite E0 in Hv; destruct i; discriminate).
  destruct (amax_peak _ Hu) as (m & _ & P). rewrite (voltages_default s dcs u cmap m Hu P).
  destruct (voltages_given s dcs u (if Req_EM_T m 0 then 1 else m) cmap i e v He Hv) as (l & E' & _ & N).
  exists l. eexists. split; [exact E'|]. split; [exact N|]. exists m. split; [exact P|].
  destruct (Req_EM_T m 0) as [Z|Z]; split; intros H; try congruence.
  assert (v = 0). { destruct P as [_ B]. apply nth_error_In in Hv. specialize (B v Hv). pose proof (Rabs_pos v).
    destruct (Req_EM_T v 0); [assumption|]. apply Rabs_pos_lt in n. lra. }
  subst. lra.
Qed.
Lemma shade_props u v h : In v u -> shade u v h ->
  0 <= h <= 1 /\ (h = 1 / 2 <-> v = 0) /\ (1 / 2 < h <-> 0 < v) /\
  (forall m, peak u m -> 0 < m -> (v = m <-> h = 1) /\ (v = - m <-> h = 0)) /\
  (forall v' h', In v' u -> shade u v' h' -> (v < v' <-> h < h')) /\
  (forall h', In (- v) u -> shade u (- v) h' -> h' = 1 - h).
Proof.
  intros Hv (m & P & Z & N). pose proof P as [Pe B].
  assert (M : 0 <= m) by (destruct Pe as (x & _ & ->); apply Rabs_pos).
  assert (bnd : forall w, In w u -> - m <= w <= m). { intros w Hw. specialize (B w Hw). unfold Rabs in B. destruct (Rcase_abs w); lra. }
  destruct (Req_EM_T m 0) as [E|E].
  - specialize (Z E). subst m. assert (z : forall w, In w u -> w = 0) by (intros w Hw; specialize (bnd w Hw); lra).
    pose proof (z v Hv). subst v. subst h.
    assert (F : forall w k, shade u w k -> k = 1 / 2).
    { intros w k (m' & P' & Z' & _). exact (Z' (peak_unique _ _ _ P' P)). }
    split; [lra|]. split; [lra|]. split; [lra|]. split; [|split].
    + intros m' P' L. pose proof (peak_unique _ _ _ P P'). lra.
    + intros v' h' Hv' Hs. rewrite (z v' Hv'), (F _ _ Hs). lra.
    + intros h' _ Hs. rewrite (F _ _ Hs). lra.
  - specialize (N E). assert (Mp : 0 < m) by lra. pose proof (bnd v Hv) as Bv.
    assert (q : forall w, w = m * (w / m)) by (intros; field; lra).
    assert (F : forall w k, In w u -> shade u w k -> k = 1 / 2 + w / m / 2).
    { intros w k Hw (m' & P' & _ & N'). rewrite (peak_unique _ _ _ P' P) in N'. apply N'. exact E. }
    set (t := v / m) in *. assert (Et : v = m * t) by apply q.
    assert (T1 : -1 <= t <= 1) by nra.
    split; [lra|]. split; [split; intros; nra|]. split; [split; intros; nra|]. split.
    + intros m' P' _. rewrite (peak_unique _ _ _ P' P). split; split; intros; nra.
    + split.
      * intros v' h' Hv' Hs. rewrite (F v' h' Hv' Hs). pose proof (q v') as Q. set (t' := v' / m) in *. split; intros; nra.
      * intros h' Hv' Hs. rewrite (F _ h' Hv' Hs). replace (- v / m) with (- t) by (unfold t; field; lra). lra.
Qed.

(** ** plot_contour *)
Definition sv (c : R) (s : list electrode) (typ : string) (p : p3) : R :=
  match contour_value (Some c) s typ p with Ok v => v | Raise _ => 0 end.
Lemma contour_value_ok c s typ p : (forall e, In e s -> well_formed (egeom e)) ->
  (typ = "dc"%string \/ typ = "rf"%string \/ typ = "tot"%string) ->
  contour_value (Some c) s typ p = Ok (sv c s typ p) /\ shown c s typ p (sv c s typ p).
Proof.
  intros Hw Ht. destruct (total_parts c s p 0%nat Hw ltac:(lia)) as (dc & rf & tot & E1 & E2 & E3 & H1 & H2 & H3).
  unfold sv, shown, contour_value. destruct Ht as [-> | [-> | ->]]; rewrite ?E1, ?E2, ?E3; cbn [bind]; split; try reflexivity.
  - left. split; [reflexivity|]. apply H2.
  - right. left. split; [reflexivity|]. apply H3.
  - right. right. split; [reflexivity|]. now rewrite H1, H2, H3.
Qed.
Lemma contour_values_grid c s typ (f : R -> R -> p3) xs ys : (forall e, In e s -> well_formed (egeom e)) ->
  (typ = "dc"%string \/ typ = "rf"%string \/ typ = "tot"%string) ->
  collect (map (fun e2 => collect (map (fun e1 => contour_value (Some c) s typ (f e1 e2)) xs)) ys) =
  Ok (map (fun e2 => map (fun e1 => sv c s typ (f e1 e2)) xs) ys).
Proof.
  intros Hw Ht. apply collect_map. intros e2 _. apply collect_map. intros e1 _. now apply contour_value_ok.
Qed.
Lemma entry_map (g : R -> R -> R) xs ys i j : (i < length xs)%nat -> (j < length ys)%nat ->
  entry (map (fun e2 => map (fun e1 => g e1 e2) xs) ys) j i = g (nth i xs 0) (nth j ys 0).
Proof.
  intros Hi Hj. unfold entry.
  rewrite (nth_indep _ [] ((fun e2 => map (fun e1 => g e1 e2) xs) 0)) by (now rewrite map_length).
  rewrite (map_nth (fun e2 => map (fun e1 => g e1 e2) xs)).
  rewrite (nth_indep _ 0 ((fun e1 => g e1 (nth j ys 0)) 0)) by (now rewrite map_length).
  now rewrite (map_nth (fun e1 => g e1 (nth j ys 0))).
Qed.
Lemma in_concat_map (g : R -> R -> R) xs ys v :
  In v (concat (map (fun e2 => map (fun e1 => g e1 e2) xs) ys)) <->
  exists i j, (i < length xs)%nat /\ (j < length ys)%nat /\ v = g (nth i xs 0) (nth j ys 0).
Proof.
  rewrite in_concat. split.
  - intros (l & Hl & Hv). apply in_map_iff in Hl. destruct Hl as (e2 & <- & H2). apply in_map_iff in Hv. destruct Hv as (e1 & <- & H1).
    destruct (In_nth _ _ 0 H1) as (i & Hi & <-). destruct (In_nth _ _ 0 H2) as (j & Hj & <-). eauto 6.
  - intros (i & j & Hi & Hj & ->). exists (map (fun e1 => g e1 (nth j ys 0)) xs). split.
    + apply in_map_iff. exists (nth j ys 0). split; [reflexivity|now apply nth_In].
    + apply in_map_iff. exists (nth i xs 0). split; [reflexivity|now apply nth_In].
Qed.
Definition axis_list (a : axis) : list R :=
  linspace (acenter a - astep a * (INR (ashape a) - 1) / 2) (acenter a + astep a * (INR (ashape a) - 1) / 2) (ashape a).
Lemma axis_list_spec a : length (axis_list a) = ashape a /\
  forall i, (i < ashape a)%nat -> nth i (axis_list a) 0 = indices_to_coordinates a (INR i).
Proof.
  destruct (to_xyz_spec [a] 0 a eq_refl) as (xs & E & L & N). cbn in E. injection E as E. fold (axis_list a) in E. subst xs.
  split; [exact L|]. intros i Hi. apply nth_error_nth. now apply N.
Qed.
Definition levels_of (maxp minp div : R) : R * bool :=
  if Rle_dec (maxp / div) minp then ((maxp - minp) / 2 + minp, true) else (maxp / div, false).
Lemma contour_ok c s first gx gy gz typ slc at_ fill div num lv vm a b la lb :
  (forall e, In e s -> well_formed (egeom e)) -> (typ = "dc"%string \/ typ = "rf"%string \/ typ = "tot"%string) ->
  slice_axes gx gy gz slc a b la lb -> (0 < ashape a)%nat -> (0 < ashape b)%nat ->
  exists f M m, (forall u v p, slice_point slc at_ u v p -> p = f u v) /\
  let z := map (fun e2 => map (fun e1 => sv c s typ (f e1 e2)) (axis_list a)) (axis_list b) in
  amax (concat z) = Ok M /\ amin (concat z) = Ok m /\
  plot_contour (Some c) s first (Some [gx; gy; gz]) typ slc at_ fill div num lv vm =
  Ok (Contour fill (axis_list a) (axis_list b) z
        (match lv with Some l => l | None => linspace m (fst (levels_of M m div)) num end)
        (match vm with Some v => v | None => fst (levels_of M m div) / 2 end) la lb M m (snd (levels_of M m div))).
Proof.
  intros Hw Ht Hs Ha Hb.
  destruct (axis_list_spec a) as [La _]. destruct (axis_list_spec b) as [Lb _].
  assert (NE : forall g : R -> R -> R, exists M m, amax (concat (map (fun e2 => map (fun e1 => g e1 e2) (axis_list a)) (axis_list b))) = Ok M /\
     amin (concat (map (fun e2 => map (fun e1 => g e1 e2) (axis_list a)) (axis_list b))) = Ok m).
  { intros g. pose proof (in_concat_map g (axis_list a) (axis_list b) (g (nth 0 (axis_list a) 0) (nth 0 (axis_list b) 0))) as [_ H].
    specialize (H ltac:(exists 0%nat, 0%nat; rewrite La, Lb; auto)).
    destruct (concat _) as [|x l]; [destruct H|]. cbn. eauto. }
  unfold levels_of. inversion Hs; subst; clear Hs.
  - exists (fun u v => P3 at_ u v). destruct (NE (fun u v => sv c s typ (P3 at_ u v))) as (M & m & EM & Em). exists M, m.
    split; [intros u v p H; inversion H; reflexivity|]. cbv zeta. split; [exact EM|]. split; [exact Em|].
    unfold plot_contour, py_index. cbn -[contour_value linspace collect amax amin concat label INR Rminus Rdiv Rmult Rplus].
    change (Pos.to_nat 1) with 1%nat. change (Pos.to_nat 2) with 2%nat. cbn [nth_error bind].
    fold (axis_list a) (axis_list b).
    rewrite (contour_values_grid c s typ (fun u v => P3 at_ u v)) by assumption. cbn [bind]. rewrite EM, Em. cbn [bind].
    destruct (Rle_dec (M / div) m); reflexivity.
  - exists (fun u v => P3 u at_ v). destruct (NE (fun u v => sv c s typ (P3 u at_ v))) as (M & m & EM & Em). exists M, m.
    split; [intros u v p H; inversion H; reflexivity|]. cbv zeta. split; [exact EM|]. split; [exact Em|].
    unfold plot_contour, py_index. cbn -[contour_value linspace collect amax amin concat label INR Rminus Rdiv Rmult Rplus].
    change (Pos.to_nat 1) with 1%nat. change (Pos.to_nat 2) with 2%nat. cbn [nth_error bind].
    fold (axis_list a) (axis_list b).
    rewrite (contour_values_grid c s typ (fun u v => P3 u at_ v)) by assumption. cbn [bind]. rewrite EM, Em. cbn [bind].
    destruct (Rle_dec (M / div) m); reflexivity.
  - exists (fun u v => P3 u v at_). destruct (NE (fun u v => sv c s typ (P3 u v at_))) as (M & m & EM & Em). exists M, m.
    split; [intros u v p H; inversion H; reflexivity|]. cbv zeta. split; [exact EM|]. split; [exact Em|].
    unfold plot_contour, py_index. cbn -[contour_value linspace collect amax amin concat label INR Rminus Rdiv Rmult Rplus].
    change (Pos.to_nat 1) with 1%nat. change (Pos.to_nat 2) with 2%nat. cbn [nth_error bind].
    fold (axis_list a) (axis_list b).
    rewrite (contour_values_grid c s typ (fun u v => P3 u v at_)) by assumption. cbn [bind]. rewrite EM, Em. cbn [bind].
    destruct (Rle_dec (M / div) m); reflexivity.
Qed.
