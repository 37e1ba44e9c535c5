(** C148 and C149: the plots of a System. *)
From Verif Require Import Base ModelUtils ModelField SpecField ModelGrid ModelPlot SpecPlot ProofPlot ProofPlot2.
Open Scope R_scope.
Notation length := List.length.

(** C148: row j, column i of the drawn table is the potential of the type at
    the point of the slice with the coordinates of column i and row j. *)
Theorem C148_values :
  forall c s first gx gy gz typ slc at_ fill div num lv vm a b la lb,
  (forall e, In e s -> well_formed (egeom e)) -> typ = "dc"%string \/ typ = "rf"%string \/ typ = "tot"%string ->
  slice_axes gx gy gz slc a b la lb -> (0 < ashape a)%nat -> (0 < ashape b)%nat ->
  exists k, plot_contour (Some c) s first (Some [gx; gy; gz]) typ slc at_ fill div num lv vm = Ok k /\
    filled k = fill /\ xlabel k = la /\ ylabel k = lb /\
    length (cx k) = ashape a /\ length (cy k) = ashape b /\ table (cz k) (ashape b) (ashape a) /\
    forall i j, (i < ashape a)%nat -> (j < ashape b)%nat ->
      nth i (cx k) 0 = indices_to_coordinates a (INR i) /\ nth j (cy k) 0 = indices_to_coordinates b (INR j) /\
      forall p, slice_point slc at_ (nth i (cx k) 0) (nth j (cy k) 0) p -> shown c s typ p (entry (cz k) j i).
Proof. exact contour_shown. Qed.
(** the returned extrema are those of the table *)
Theorem C148_extrema :
  forall c s first gx gy gz typ slc at_ fill div num lv vm a b la lb,
  (forall e, In e s -> well_formed (egeom e)) -> typ = "dc"%string \/ typ = "rf"%string \/ typ = "tot"%string ->
  slice_axes gx gy gz slc a b la lb -> (0 < ashape a)%nat -> (0 < ashape b)%nat ->
  forall k, plot_contour (Some c) s first (Some [gx; gy; gz]) typ slc at_ fill div num lv vm = Ok k ->
  (exists i j, (i < ashape a)%nat /\ (j < ashape b)%nat /\ entry (cz k) j i = maxp k) /\
  (exists i j, (i < ashape a)%nat /\ (j < ashape b)%nat /\ entry (cz k) j i = minp k) /\
  forall i j, (i < ashape a)%nat -> (j < ashape b)%nat -> minp k <= entry (cz k) j i <= maxp k.
Proof. exact contour_extrema. Qed.
(** the default levels: from the minimum to the maximum divided by
    divide_max, or, with a warning, to the middle *)
Theorem C148_levels :
  forall c s first gx gy gz typ slc at_ fill div num lv vm a b la lb,
  (forall e, In e s -> well_formed (egeom e)) -> typ = "dc"%string \/ typ = "rf"%string \/ typ = "tot"%string ->
  slice_axes gx gy gz slc a b la lb -> (0 < ashape a)%nat -> (0 < ashape b)%nat ->
  forall k, plot_contour (Some c) s first (Some [gx; gy; gz]) typ slc at_ fill div num lv vm = Ok k ->
  lv = None -> (2 <= num)%nat -> minp k < maxp k ->
  exists top, minp k < top /\ (maxp k / div > minp k -> top = maxp k / div /\ warned k = false) /\
    (maxp k / div <= minp k -> top = (minp k + maxp k) / 2 /\ warned k = true) /\
    length (levels k) = num /\ nth 0 (levels k) 0 = minp k /\ nth (num - 1) (levels k) 0 = top /\
    strictly_increasing (levels k) /\ (vm = None -> vmin k = top / 2).
Proof. exact contour_levels. Qed.
Theorem C148_levels_in_range :
  forall c s first gx gy gz typ slc at_ fill div num lv vm a b la lb,
  (forall e, In e s -> well_formed (egeom e)) -> typ = "dc"%string \/ typ = "rf"%string \/ typ = "tot"%string ->
  slice_axes gx gy gz slc a b la lb -> (0 < ashape a)%nat -> (0 < ashape b)%nat ->
  forall k, plot_contour (Some c) s first (Some [gx; gy; gz]) typ slc at_ fill div num lv vm = Ok k ->
  lv = None -> 1 <= div -> 0 <= maxp k -> forall l, In l (levels k) -> minp k <= l <= maxp k.
Proof. exact contour_levels_range. Qed.
(** keyword arguments of the user are kept *)
Theorem C148_keywords :
  forall c s first gx gy gz typ slc at_ fill div num lv vm a b la lb,
  (forall e, In e s -> well_formed (egeom e)) -> typ = "dc"%string \/ typ = "rf"%string \/ typ = "tot"%string ->
  slice_axes gx gy gz slc a b la lb -> (0 < ashape a)%nat -> (0 < ashape b)%nat ->
  forall k, plot_contour (Some c) s first (Some [gx; gy; gz]) typ slc at_ fill div num lv vm = Ok k ->
  (forall l, lv = Some l -> levels k = l) /\ (forall v, vm = Some v -> vmin k = v).
Proof. exact contour_keywords. Qed.
(** without grid the points are those of the samples of the first electrode *)
Theorem C148_default_grid :
  forall rf s g d more typ slc at_ fill div num lv vm, gdata g = d :: more ->
  exists ax ay az, (ashape ax = n1 d /\ ashape ay = n2 d /\ ashape az = n3 d) /\
    plot_contour rf s (Some (Some g)) None typ slc at_ fill div num lv vm =
    plot_contour rf s (Some (Some g)) (Some [ax; ay; az]) typ slc at_ fill div num lv vm /\
    forall i, indices_to_coordinates ax (INR i) = px (gorigin g) + INR i * px (gspacing g) /\
      indices_to_coordinates ay (INR i) = py (gorigin g) + INR i * py (gspacing g) /\
      indices_to_coordinates az (INR i) = pz (gorigin g) + INR i * pz (gspacing g).
Proof. exact contour_default. Qed.
(** errors *)
Theorem C148_bad_slice :
  forall rf s first g typ slc at_ fill div num lv vm, slc <> "x"%string -> slc <> "y"%string -> slc <> "z"%string ->
  plot_contour rf s first (Some g) typ slc at_ fill div num lv vm = Raise KeyError.
Proof. exact contour_bad_slice. Qed.
Theorem C148_bad_typ :
  forall c s first gx gy gz typ slc at_ fill div num lv vm a b la lb, (forall e, In e s -> well_formed (egeom e)) ->
  typ <> "dc"%string -> typ <> "rf"%string -> typ <> "tot"%string ->
  slice_axes gx gy gz slc a b la lb -> (0 < ashape a)%nat -> (0 < ashape b)%nat ->
  plot_contour (Some c) s first (Some [gx; gy; gz]) typ slc at_ fill div num lv vm = Raise ValueError.
Proof. exact contour_bad_typ. Qed.
Theorem C148_empty_grid :
  forall c s first gx gy gz typ slc at_ fill div num lv vm a b la lb, (forall e, In e s -> well_formed (egeom e)) ->
  typ = "dc"%string \/ typ = "rf"%string \/ typ = "tot"%string ->
  slice_axes gx gy gz slc a b la lb -> ashape a = 0%nat \/ ashape b = 0%nat ->
  plot_contour (Some c) s first (Some [gx; gy; gz]) typ slc at_ fill div num lv vm = Raise ValueError.
Proof. exact contour_empty. Qed.
Theorem C148_no_grid :
  forall rf s typ slc at_ fill div num lv vm,
  plot_contour rf s None None typ slc at_ fill div num lv vm = Raise IndexError /\
  plot_contour rf s (Some None) None typ slc at_ fill div num lv vm = Raise AttributeError.
Proof. exact contour_no_grid. Qed.
(** Where the potential is negative everywhere the default levels leave the
    range of the potential, without warning; where it is constant they are
    all equal. *)
Theorem C148_refuted_negative :
  forall c s first gx gy gz typ slc at_ fill div num lv vm a b la lb,
  (forall e, In e s -> well_formed (egeom e)) -> typ = "dc"%string \/ typ = "rf"%string \/ typ = "tot"%string ->
  slice_axes gx gy gz slc a b la lb -> (0 < ashape a)%nat -> (0 < ashape b)%nat ->
  forall k, plot_contour (Some c) s first (Some [gx; gy; gz]) typ slc at_ fill div num lv vm = Ok k ->
  lv = None -> 1 < div -> maxp k < 0 -> (2 <= num)%nat ->
  maxp k < nth (num - 1) (levels k) 0 /\ warned k = false.
Proof. exact contour_levels_above. Qed.
Theorem C148_refuted_constant :
  forall c s first gx gy gz typ slc at_ fill div num lv vm a b la lb,
  (forall e, In e s -> well_formed (egeom e)) -> typ = "dc"%string \/ typ = "rf"%string \/ typ = "tot"%string ->
  slice_axes gx gy gz slc a b la lb -> (0 < ashape a)%nat -> (0 < ashape b)%nat ->
  forall k, plot_contour (Some c) s first (Some [gx; gy; gz]) typ slc at_ fill div num lv vm = Ok k ->
  lv = None -> 1 <= div -> 0 <= maxp k -> minp k = maxp k -> forall l, In l (levels k) -> l = minp k.
Proof. exact contour_levels_constant. Qed.
Print Assumptions C148_values.
Print Assumptions C148_extrema.
Print Assumptions C148_levels.
Print Assumptions C148_levels_in_range.
Print Assumptions C148_keywords.
Print Assumptions C148_default_grid.
Print Assumptions C148_bad_slice.
Print Assumptions C148_bad_typ.
Print Assumptions C148_empty_grid.
Print Assumptions C148_no_grid.
Print Assumptions C148_refuted_negative.
Print Assumptions C148_refuted_constant.

(** a cover electrode of height 2 at 6 V: the potential is 3 z *)
Definition ex_cover (v : R) : list electrode := [Electrode "top" v 0 (ECover 2)].
Lemma ex_wf v : forall e, In e (ex_cover v) -> well_formed (egeom e).
Proof. intros e [<-|[]]. cbn. auto. Qed.
Lemma ex_entry v p : tensor_entry (ex_cover v) TDc 0 [] p = v * pz p / 2.
Proof.
  unfold tensor_entry, electrical_potential_expanded, ex_cover. cbn.
  destruct (Req_EM_T v 0) as [->|]; cbn; lra.
Qed.
(** the slice x = 1/2 at y = -1, 0, 1 and z = 1, 2, 3, 4, 5 *)
Definition ex_call (v at_ : R) :=
  plot_contour (Some 1) (ex_cover v) None (Some [Axis 0 1 1; Axis 0 1 3; Axis 3 1 5]) "dc" "x" at_ false 8 50 None None.
Lemma ex_table v at_ : exists k, ex_call v at_ = Ok k /\ maxp k = Rmax (v * 1 / 2) (v * 5 / 2) /\ minp k = Rmin (v * 1 / 2) (v * 5 / 2) /\
  forall i j, (i < 3)%nat -> (j < 5)%nat -> entry (cz k) j i = v * (1 + INR j) / 2.
Proof.
  assert (SA := axes_x (Axis 0 1 1) (Axis 0 1 3) (Axis 3 1 5)).
  destruct (C148_values 1 (ex_cover v) None _ _ _ "dc" "x" at_ false 8 50 None None _ _ _ _ (ex_wf v) (or_introl eq_refl) SA ltac:(cbn; lia) ltac:(cbn; lia))
    as (k & E & _ & _ & _ & _ & _ & _ & V).
  fold (ex_call v at_) in E. cbn [ashape] in V. exists k. split; [exact E|].
  assert (W : forall i j, (i < 3)%nat -> (j < 5)%nat -> entry (cz k) j i = v * (1 + INR j) / 2).
  { intros i j Hi Hj. destruct (V i j Hi Hj) as (_ & Y & S). destruct (S _ (slice_x at_ _ _)) as [[_ S']|[[? _]|[? _]]]; [|discriminate|discriminate].
    rewrite S', ex_entry. cbn [pz]. rewrite Y. unfold indices_to_coordinates. cbn [acenter astep ashape INR]. lra. }
  destruct (C148_extrema 1 (ex_cover v) None _ _ _ "dc" "x" at_ false 8 50 None None _ _ _ _ (ex_wf v) (or_introl eq_refl) SA ltac:(cbn; lia) ltac:(cbn; lia) k E)
    as ((i & j & Hi & Hj & M) & (i' & j' & Hi' & Hj' & m) & B). cbn [ashape] in *.
  assert (B0 := B 0%nat 0%nat ltac:(lia) ltac:(lia)). assert (B4 := B 0%nat 4%nat ltac:(lia) ltac:(lia)).
  rewrite W in B0, B4 by lia. rewrite W in M, m by assumption. cbn [INR] in B0, B4.
  assert (0 <= INR j <= 4) by (split; [apply pos_INR|]; replace 4 with (INR 4) by (cbn; lra); apply le_INR; lia).
  assert (0 <= INR j' <= 4) by (split; [apply pos_INR|]; replace 4 with (INR 4) by (cbn; lra); apply le_INR; lia).
  split; [|split; [|exact W]].
  - unfold Rmax. destruct (Rle_dec _ _); nra.
  - unfold Rmin. destruct (Rle_dec _ _); nra.
Qed.
(** 6 V: between 3 and 15; 15/8 is below the minimum, so the levels end at 9 *)
Example ex_148 : exists k, ex_call 6 (1/2) = Ok k /\ minp k = 3 /\ maxp k = 15 /\ entry (cz k) 1 2 = 6 /\
  warned k = true /\ nth 49 (levels k) 0 = 9.
Proof.
  destruct (ex_table 6 (1/2)) as (k & E & M & m & W). exists k. split; [exact E|].
  rewrite Rmax_right in M by lra. rewrite Rmin_left in m by lra.
  assert (SA := axes_x (Axis 0 1 1) (Axis 0 1 3) (Axis 3 1 5)).
  destruct (C148_levels 1 (ex_cover 6) None _ _ _ "dc" "x" (1/2) false 8 50 None None _ _ _ _ (ex_wf 6) (or_introl eq_refl) SA ltac:(cbn; lia) ltac:(cbn; lia) k E
    eq_refl ltac:(lia) ltac:(lra)) as (top & _ & _ & T & _ & _ & L & _). rewrite M, m in T. destruct (T ltac:(lra)) as [T1 T2].
  split; [lra|]. split; [lra|]. split; [rewrite W by lia; cbn [INR]; lra|]. split; [exact T2|].
  change 49%nat with (50 - 1)%nat. rewrite L. lra.
Qed.
(** -6 V: between -15 and -3, but the levels go up to -3/8 *)
Example ex_148_negative : exists k, ex_call (-6) (1/2) = Ok k /\ maxp k = -3 /\ maxp k < nth 49 (levels k) 0 /\ warned k = false.
Proof.
  destruct (ex_table (-6) (1/2)) as (k & E & M & m & W). exists k. split; [exact E|].
  rewrite Rmax_left in M by lra.
  assert (SA := axes_x (Axis 0 1 1) (Axis 0 1 3) (Axis 3 1 5)).
  destruct (C148_refuted_negative 1 (ex_cover (-6)) None _ _ _ "dc" "x" (1/2) false 8 50 None None _ _ _ _ (ex_wf (-6)) (or_introl eq_refl) SA ltac:(cbn; lia) ltac:(cbn; lia) k E
    eq_refl ltac:(lra) ltac:(lra) ltac:(lia)) as [A B]. split; [lra|]. auto.
Qed.
Example ex_148_constant : exists k, ex_call 0 (1/2) = Ok k /\ forall l, In l (levels k) -> l = 0.
Proof.
  destruct (ex_table 0 (1/2)) as (k & E & M & m & W). exists k. split; [exact E|].
  rewrite Rmax_left in M by lra. rewrite Rmin_left in m by lra.
  assert (SA := axes_x (Axis 0 1 1) (Axis 0 1 3) (Axis 3 1 5)). intros l Hl.
  rewrite (C148_refuted_constant 1 (ex_cover 0) None _ _ _ "dc" "x" (1/2) false 8 50 None None _ _ _ _ (ex_wf 0) (or_introl eq_refl) SA ltac:(cbn; lia) ltac:(cbn; lia) k E
    eq_refl ltac:(lra) ltac:(lra) ltac:(lra) l Hl). lra.
Qed.

(** C149: each electrode is drawn in the colour of its own voltage. *)
Theorem C149_given_scale :
  forall (E Col : Type) (s : list E) dcs u um (cmap : R -> Col) i e v,
  nth_error s i = Some e -> nth_error (default_u dcs u) i = Some v ->
  exists l, plot_voltages s dcs u (Some um) cmap = Ok l /\ length l = Nat.min (length s) (length (default_u dcs u)) /\
    nth_error l i = Some (e, cmap (1 / 2 + v / um / 2)).
Proof. exact @voltages_given. Qed.
Theorem C149_default_scale :
  forall (E Col : Type) (s : list E) dcs u (cmap : R -> Col) i e v,
  nth_error s i = Some e -> nth_error (default_u dcs u) i = Some v ->
  exists l h, plot_voltages s dcs u None cmap = Ok l /\ nth_error l i = Some (e, cmap h) /\ shade (default_u dcs u) v h.
Proof. exact @voltages_shade. Qed.
(** the colours by default: within the map, its middle for 0 V only, ordered
    as the voltages, opposite for opposite voltages, the ends for the
    largest magnitude *)
Theorem C149_shade :
  forall u v h, In v u -> shade u v h ->
  0 <= h <= 1 /\ (h = 1 / 2 <-> v = 0) /\ (1 / 2 < h <-> 0 < v) /\
  (forall m, peak u m -> 0 < m -> (v = m <-> h = 1) /\ (v = - m <-> h = 0)) /\
  (forall v' h', In v' u -> shade u v' h' -> (v < v' <-> h < h')) /\
  (forall h', In (- v) u -> shade u (- v) h' -> h' = 1 - h).
Proof. exact shade_props. Qed.
Theorem C149_empty :
  forall (E Col : Type) (s : list E) dcs u (cmap : R -> Col), default_u dcs u = [] ->
  plot_voltages s dcs u None cmap = Raise ValueError.
Proof. exact @voltages_empty. Qed.
(** System.plot draws every electrode once, in order, with the twelve colours
    in turn; the colours are different and their components within 0..1 *)
Theorem C149_plot :
  forall (E : Type) (d : E) (s : list E) alpha,
  length (plot s alpha) = length s /\
  forall i, (i < length s)%nat -> nth_error (plot s alpha) i =
    Some (nth i s d, scale255 (nth (i mod 12) set3 (0, 0, 0)%Z), alpha).
Proof. exact @plot_calls. Qed.
Theorem C149_plot_colours :
  forall i, (let '(r, g, b) := scale255 (nth i set3 (0, 0, 0)%Z) in 0 <= r <= 1 /\ 0 <= g <= 1 /\ 0 <= b <= 1) /\
  forall j, (i < 12)%nat -> (j < 12)%nat ->
  scale255 (nth i set3 (0, 0, 0)%Z) = scale255 (nth j set3 (0, 0, 0)%Z) -> i = j.
Proof. intros i. split; [apply set3_range|]. intros j. apply set3_distinct. Qed.
(** 255 is full intensity *)
Theorem C149_intensity :
  forall r g b x y z, scale255 (r, g, b) = (x, y, z) -> 255 * x = IZR r /\ 255 * y = IZR g /\ 255 * z = IZR b.
Proof. exact scale255_spec. Qed.
Print Assumptions C149_intensity.
Print Assumptions C149_given_scale.
Print Assumptions C149_default_scale.
Print Assumptions C149_shade.
Print Assumptions C149_empty.
Print Assumptions C149_plot.
Print Assumptions C149_plot_colours.
Example ex_149 : exists l, plot_voltages ["a"; "b"; "c"]%string [-4; 0; 2] None None (fun h => h) = Ok l /\
  exists h, nth_error l 2 = Some ("c"%string, h) /\ h = 3 / 4.
Proof.
  destruct (C149_default_scale _ _ ["a"; "b"; "c"]%string [-4; 0; 2] None (fun h => h) 2 "c"%string 2 eq_refl eq_refl) as (l & h & E & N & S).
  exists l. split; [exact E|]. exists h. split; [exact N|]. destruct S as (m & P & _ & S).
  assert (m = 4).
  { destruct P as [(x & Hx & Ex) B]. assert (B1 := B (-4) (or_introl eq_refl)).
    rewrite Rabs_left in B1 by lra. destruct Hx as [<-|[<-|[<-|[]]]]; [rewrite Rabs_left in Ex by lra; lra|rewrite Rabs_R0 in Ex; lra|rewrite Rabs_pos_eq in Ex by lra; lra]. }
  subst m. rewrite S by lra. lra.
Qed.
Example ex_149_plot : nth_error (plot (seq 0 20) 1) 13 = Some (13%nat, (1, 1, 179 / 255), 1).
Proof.
  rewrite (proj2 (C149_plot nat 0%nat (seq 0 20) 1)) by (rewrite seq_length; lia). cbn. replace (255 / 255) with 1 by lra. reflexivity.
Qed.
