(** Proof of C184: the rounding error of the potential of a system with images in the cover. *)
From Flocq Require Import Core.
From Verif Require Import Base ModelExpr ModelField ModelFloat ModelFloatExpr ModelFloatField SpecFloat SpecFloat2 SpecFloat3 SpecFloat5
  ProofFloat ProofFloat2 ProofFloat3 ProofFloat4 ProofFloat5 ProofFloat6 ProofFloat7 ProofFloat8 ProofFloat9 ProofFloat10 ProofFloat12 ProofFloat13.
Import ListNotations.
Open Scope R_scope.

Lemma upper_dist y q : dist (upper y) q = dist y q.
Proof. unfold dist, upper. cbn [px py pz]. rewrite pow2_abs. reflexivity. Qed.

Section sys.
Variables (pw : R -> nat -> R) (at2 : R -> R -> R) (p : R).
Hypotheses (Hw : good_pow pw) (Hpi : good_pi p) (Ha : good_atan2 at2).
Let A := b64x pw at2 p.
Let Hr : forall x, near 1 (rnd A x) x.
Proof. intros x. apply round_near. Qed.
Let Hp : forall x n, near 2 (lpow A x n) (x ^ n).
Proof. intros x n. apply pow_near, Hw. Qed.
Let Hpi' : near 1 (lpi A) PI.
Proof. apply pi_near, Hpi. Qed.

Lemma image_edge0 v x (z : fx) (q1 q2 : p2) (a : fx) c :
  0 < Rabs (pz x) -> feval exact v z = pz x -> near 4 (feval A v z) (pz x) ->
  a = Volt /\ c = 1 \/ a = Mul (Num c) Volt ->
  let x1 := fx_x x q1 in let y1 := fx_y x q1 in let r1 := fx_r x1 y1 z in
  let x2 := fx_x x q2 in let y2 := fx_y x q2 in let r2 := fx_r x2 y2 z in
  forall l2 e, In e (edge_fx 0 x1 x2 y1 y2 r1 r2 l2 z a) ->
  bounded 33 (feval A v e) (feval exact v e) (Rabs v * (Rabs c * side_size (upper x) q1 q2)).
Proof.
  intros Hz EZ NZ Hc x1 y1 r1 x2 y2 r2 l2 e [<-|[]].
  set (Nf := Mul z (Sub (Mul x1 y2) (Mul y1 x2))).
  set (zs := Abs z).
  set (Df := Mul zs (Add (Add (Add (Mul r1 r2) (Mul x1 x2)) (Mul y1 y2)) (Mul zs (Add (Add zs r1) r2)))).
  set (Z := Rabs (pz x)) in *.
  set (X1 := px x - fst q1). set (Y1 := py x - snd q1). set (X2 := px x - fst q2). set (Y2 := py x - snd q2).
  assert (ER : forall q, feval exact v (fx_r (fx_x x q) (fx_y x q) z) = dist x q).
  { intros q. unfold fx_r. cbn [feval exact rnd lpow]. change (feval (Arith (fun x => x) pow _ PI)) with (feval exact).
    rewrite EZ. reflexivity. }
  set (R1 := dist x q1). set (R2 := dist x q2).
  assert (R0 : forall q, 0 <= dist x q) by (intros q; apply sqrt_pos).
  assert (P1 : 0 <= R1) by apply R0. assert (P2 : 0 <= R2) by apply R0.
  assert (NX : forall e, cls e = Some 1%nat -> near 1 (feval A v e) (feval exact v e)) by (intros e C; apply cls_near; assumption).
  assert (NZs : near 4 (feval A v zs) Z).
  { unfold zs, Z. cbn [feval]. destruct NZ as [t [-> [T1 T2]]]. exists t. split; [|split; assumption].
    rewrite Rabs_mult, (Rabs_pos_eq t); [reflexivity|]. pose proof (wp_ge 4). assert (0 < / w ^ 4) by (apply Rinv_0_lt_compat; lra). lra. }
  assert (NR1 : near 7 (feval A v r1) R1) by (apply (dist_near pw at2 p Hw), NZ).
  assert (NR2 : near 7 (feval A v r2) R2) by (apply (dist_near pw at2 p Hw), NZ).
  assert (PX : forall e e', In e [x1; x2; y1; y2] -> In e' [x1; x2; y1; y2] ->
    bounded 3 (feval A v (Mul e e')) (feval exact v (Mul e e')) (Rabs (feval exact v e * feval exact v e'))).
  { intros e e' I I'. apply near_bounded. cbn [feval exact rnd]. apply (rnd_near A Hr). apply (near_mul 1 1); apply NX.
    - repeat destruct I as [<-|I]; [reflexivity..|destruct I].
    - repeat destruct I' as [<-|I']; [reflexivity..|destruct I']. }
  assert (BN : bounded 23 (feval A v Nf) (pz x * (X1 * Y2 - Y1 * X2)) (Z * (Rabs (X1 * Y2) + Rabs (Y1 * X2)))).
  { apply (bounded_weak 9); [lia|]. unfold Nf. cbn [feval].
    apply (bounded_rnd A Hr). apply (bounded_mul 4 4); [apply near_bounded, NZ|].
    apply (bounded_rnd A Hr). unfold Rminus. apply bounded_add; [|apply bounded_opp].
    - apply (PX x1 y2); cbn; tauto.
    - apply (PX y1 x2); cbn; tauto. }
  assert (BD : bounded 23 (feval A v Df) (Z * (R1 * R2 + X1 * X2 + Y1 * Y2 + Z * (Z + R1 + R2)))
    (Z * (R1 * R2 + Rabs (X1 * X2) + Rabs (Y1 * Y2) + Z * (Z + R1 + R2)))).
  { assert (BZ : bounded 4 (feval A v zs) Z Z) by (apply (bounded_size _ _ _ (Rabs Z)); [rewrite Rabs_pos_eq by lra; lra|apply near_bounded, NZs]).
    unfold Df. cbn [feval]. fold (feval A v zs).
    apply (bounded_rnd A Hr). apply (bounded_mul 4 18); [exact BZ|].
    apply (bounded_rnd A Hr). apply bounded_add.
    - apply (bounded_rnd A Hr). apply bounded_add; [|apply (bounded_weak 3); [lia|]; apply (PX y1 y2); cbn; tauto].
      apply (bounded_rnd A Hr). apply bounded_add; [|apply (bounded_weak 3); [lia|]; apply (PX x1 x2); cbn; tauto].
      apply (bounded_size _ _ _ (Rabs (R1 * R2))); [rewrite Rabs_pos_eq by (apply Rmult_le_pos; assumption); lra|].
      apply near_bounded, (rnd_near A Hr). apply (near_mul 7 7); assumption.
    - apply (bounded_weak 14); [lia|]. apply (bounded_rnd A Hr). apply (bounded_mul 4 9); [exact BZ|].
      apply (bounded_size _ _ _ (Rabs (Z + R1 + R2))); [rewrite Rabs_pos_eq by lra; lra|]. apply near_bounded.
      apply (rnd_near A Hr). apply near_add; [lra|lra| |apply (near_weak 7); [lia|exact NR2]].
      apply (rnd_near A Hr). apply near_add; [lra|lra|apply (near_weak 4); [lia|exact NZs]|exact NR1]. }
  pose proof (side_sizes X1 Y1 X2 Y2 Z Hz) as [D0 Q].
  assert (E1 : forall a b, sqrt (a ^ 2 + b ^ 2 + Z ^ 2) = sqrt (a ^ 2 + b ^ 2 + pz x ^ 2)) by (intros a0 b0; unfold Z; rewrite pow2_abs; reflexivity).
  rewrite !E1 in D0, Q. change (sqrt (X1 ^ 2 + Y1 ^ 2 + pz x ^ 2)) with R1 in *.
  change (sqrt (X2 ^ 2 + Y2 ^ 2 + pz x ^ 2)) with R2 in *.
  pose proof (angle_bounded at2 _ _ _ _ _ _ _ Ha D0 BN BD) as BA.
  apply (bounded_size _ _ _ _ _ Q) in BA.
  assert (BM : bounded 3 (feval A v (Div a Pi)) (feval exact v (Div a Pi)) (Rabs v * Rabs c / PI)).
  { assert (NM : near 3 (feval A v (Div a Pi)) (feval exact v (Div a Pi))).
    { destruct Hc as [[-> _]| ->]; [apply (near_weak 2); [lia|]|]; (apply cls_near; [exact Hr|exact Hp|exact Hpi'|reflexivity]). }
    assert (V : Rabs (feval exact v (Div a Pi)) = Rabs v * Rabs c / PI).
    { pose proof PI_RGT_0. rewrite <- Rabs_mult. destruct Hc as [[-> ->]| ->]; cbn [feval exact rnd lpi]; unfold Rdiv;
        rewrite !Rabs_mult, Rabs_inv, (Rabs_pos_eq PI) by lra; rewrite ?Rabs_R1; ring. }
    rewrite <- V. split; [apply near_abs, NM|apply Rle_refl]. }
  pose proof (bounded_mul _ _ _ _ _ _ _ _ BA BM) as BF. apply (bounded_rnd A Hr) in BF.
  assert (VN : feval exact v Nf = pz x * (X1 * Y2 - Y1 * X2)) by (unfold Nf; cbn [feval exact rnd]; rewrite <- EZ; reflexivity).
  assert (EZs : feval exact v zs = Z) by (unfold zs, Z; cbn [feval]; rewrite EZ; reflexivity).
  assert (VD : feval exact v Df = Z * (R1 * R2 + X1 * X2 + Y1 * Y2 + Z * (Z + R1 + R2))).
  { unfold R1, R2. rewrite <- !ER, <- EZs. reflexivity. }
  rewrite <- VN, <- VD in BF.
  change (bounded 33 (feval A v (Mul (Atan2 Nf Df) (Div a Pi))) (feval exact v (Mul (Atan2 Nf Df) (Div a Pi))) (Rabs v * (Rabs c * side_size (upper x) q1 q2))).
  eapply bounded_size; [|eapply bounded_weak; [|exact BF]].
  - unfold side_size. rewrite !upper_dist. cbn [upper pz]. fold R1 R2 Z. set (mn := Rmin R1 R2).
    assert (M0 : 0 <= mn) by (apply Rmin_glb; assumption).
    assert (IZ : 0 < / Z) by (apply Rinv_0_lt_compat; exact Hz).
    assert (F : 50 / PI <= 17).
    { pose proof PI_RGT_0 as P0. pose proof PI2_3_2 as P3. apply Rmult_le_reg_r with PI; [exact P0|].
      unfold Rdiv. rewrite Rmult_assoc, Rinv_l by lra. lra. }
    apply Rle_trans with (50 / PI * (Rabs v * Rabs c * (mn / Z))).
    + right. field. split; [lra|apply PI_neq0].
    + apply Rle_trans with (17 * (Rabs v * Rabs c * (mn / Z))); [|right; field; lra].
      apply Rmult_le_compat_r; [|exact F]. apply Rmult_le_pos; [apply Rmult_le_pos; apply Rabs_pos|].
      apply Rmult_le_pos; lra.
  - lia.
Qed.
Lemma image_pixel0 v x (z : fx) (q : p2) c :
  0 < Rabs (pz x) -> feval exact v z = pz x -> near 4 (feval A v z) (pz x) ->
  forall e, In e (point_fx 0 (fx_x x q) (fx_y x q) z (fx_r (fx_x x q) (fx_y x q) z) (Mul (Num c) Volt)) ->
  bounded 33 (feval A v e) (feval exact v e) (Rabs v * (Rabs c * pz (upper x) / (2 * PI * dist (upper x) q ^ 3))).
Proof.
  intros Hz EZ NZ e [<-|[]]. rewrite upper_dist. cbn [upper pz].
  set (r := fx_r (fx_x x q) (fx_y x q) z). set (a := Mul (Num c) Volt).
  change (point_fx0 (fx_x x q) (fx_y x q) z r a) with (point_fx0 (fx_x x q) (fx_y x q) z r a).
  assert (ER : feval exact v r = dist x q).
  { unfold r, fx_r. cbn [feval exact rnd lpow]. change (feval (Arith (fun x => x) pow _ PI)) with (feval exact).
    rewrite EZ. reflexivity. }
  assert (D0 : 0 < dist x q).
  { unfold dist. apply sqrt_lt_R0. pose proof (pow2_ge_0 (px x - fst q)). pose proof (pow2_ge_0 (py x - snd q)).
    assert (0 < pz x ^ 2) by (rewrite <- pow2_abs; apply pow_lt; exact Hz). lra. }
  assert (NR : near 7 (feval A v r) (feval exact v r)) by (rewrite ER; apply (dist_near pw at2 p Hw), NZ).
  assert (NN : near 28 (feval A v (nfx 0 r a)) (feval exact v (nfx 0 r a))).
  { cbn [nfx feval exact rnd lpow lpi]. apply (rnd_near A Hr). apply (near_div 1 26); [apply Hr|].
    apply (rnd_near A Hr). apply (near_mul 2 23).
    - apply (rnd_near A Hr). apply (near_mul 0 1); [apply near_refl|exact Hpi'].
    - apply (near_trans 2 21 _ (feval A v r ^ 3)); [apply Hp|]. exact (near_pow 7 _ _ 3 NR). }
  assert (N : near 33 (feval A v (Mul z (nfx 0 r a))) (feval exact v (Mul z (nfx 0 r a)))).
  { cbn [feval]. apply (rnd_near A Hr). apply (near_mul 4 28); [rewrite EZ; exact NZ|exact NN]. }
  apply near_bounded in N.
  eapply bounded_size; [|exact N]. cbn [feval exact rnd]. fold (feval exact v (nfx 0 r a)).
  change (feval {| rnd := fun x => x; lpow := pow; latan2 := latan2 exact; lpi := PI |} v z) with (feval exact v z).
  rewrite Rabs_mult. 
  change (feval {| rnd := fun x => x; lpow := pow; latan2 := latan2 exact; lpi := PI |} v (nfx 0 r a)) with (feval exact v (nfx 0 r a)).
  rewrite (nfx_exact 0 v r a) by (lia || (rewrite ER; exact D0)). rewrite ER, EZ.
  assert (EA : Rabs (feval exact v a) = Rabs v * Rabs c) by (cbn [a feval exact rnd]; rewrite Rabs_mult; ring).
  rewrite EA. right. cbn [fac Nat.add]. pose proof PI_RGT_0. field. split; lra.
Qed.

Let fits (st : stmt) (m : R) : Prop :=
  forall v, bounded 33 (feval A v (se st)) (feval exact v (se st)) (Rabs v * m).
Let fit (l : list stmt) (m : list R) : Prop :=
  exists m', Forall2 fits l m' /\ total m' = total m /\ length m' = length m.

Lemma fit0_app l1 m1 l2 m2 : fit l1 m1 -> fit l2 m2 -> fit (l1 ++ l2) (m1 ++ m2).
Proof.
  intros (a & A1 & A2 & A3) (b & B1 & B2 & B3). exists (a ++ b). split; [apply Forall2_app; assumption|].
  rewrite !total_app, !app_length. split; [congruence|lia].
Qed.
Lemma fit0_flat {X} (f : X -> list stmt) (g : X -> list R) l : (forall x, In x l -> fit (f x) (g x)) -> fit (flat_map f l) (flat_map g l).
Proof.
  induction l as [|x l IH]; intros H; cbn [flat_map].
  - exists []. repeat split. constructor.
  - apply fit0_app; [apply H; left; reflexivity|apply IH]. intros y Hy. apply H. right; exact Hy.
Qed.
Lemma fit0_swap {X Y} l (f : X -> Y -> list R) (lx : list X) (ly : list Y) :
  fit l (flat_map (fun x => flat_map (f x) ly) lx) -> fit l (flat_map (fun y => flat_map (fun x => f x y) lx) ly).
Proof.
  intros (m & M1 & M2 & M3). destruct (swap_flat f lx ly) as [S1 S2]. exists m. split; [exact M1|]. split; congruence.
Qed.
Lemma fit0_eq l m : Forall2 fits l m -> fit l m.
Proof. intros H. exists m. auto. Qed.

Let img (x : p3) (k : Z) (h : R) : p3 := P3 (px x) (py x) (pz x + 2 * IZR k * h).
Lemma image_height0 x n h k : 0 < pz x -> n = 0%Z \/ pz x <= h -> In k (images n) ->
  0 < Rabs (pz (img x k h)) /\
  (forall v, feval exact v (fx_z x k h) = pz (img x k h)) /\
  (forall v, near 4 (feval A v (fx_z x k h)) (pz (img x k h))).
Proof. exact (image_height pw at2 p 1 0 ltac:(lia) ltac:(lia) x n h k). Qed.
Lemma none_row0 j j' l : length l = 1%nat -> j' <> j -> filter (hits j 0) (on_row j' l) = [].
Proof. intros L N. rewrite hits_on_row by (rewrite L; lia). apply Nat.eqb_neq in N. rewrite N. reflexivity. Qed.
Lemma one_row0 j l m : length l = 1%nat ->
  (forall v e, In e l -> bounded 33 (feval A v e) (feval exact v e) (Rabs v * m)) ->
  Forall2 fits (filter (hits j 0) (on_row j l)) [m].
Proof.
  intros L H. rewrite hits_on_row by (rewrite L; lia). rewrite Nat.eqb_refl. constructor; [|constructor].
  intros v. cbn [se]. apply H, nth_In. rewrite L. lia.
Qed.
Lemma none_images0 {X} j j' (f : X -> list stmt) l : j' <> j -> (forall k, filter (hits j 0) (f k) = []) ->
  flat_map (fun k => filter (hits j 0) (f k)) l = [].
Proof. intros N H. rewrite (flat_map_ext _ (fun _ => [])) by apply H. apply flat_nil. Qed.
Lemma image_point0 xs pixels n h j : (j < length xs)%nat -> 0 < pz (at_ xs j) -> n = 0%Z \/ pz (at_ xs j) <= h ->
  fit (filter (hits j 0) (point_stmts xs pixels 0 n h)) (image_sizes (at_ xs j) (EPoint pixels n h)).
Proof.
  intros Hj Hz Hn. unfold image_sizes. cbn [seen_from sizes]. rewrite flat_map_concat_map, map_map, <- flat_map_concat_map.
  set (x := at_ xs j) in *.
  rewrite (flat_map_ext _ (fun k => flat_map (fun pa : p2 * R =>
    [Rabs (snd pa) * pz (upper (img x k h)) / (2 * PI * dist (upper (img x k h)) (fst pa) ^ 3)]) pixels)) by (intros k; symmetry; apply flat_one).
  apply (fit0_swap _ (fun (pa : p2 * R) k => [Rabs (snd pa) * pz (upper (img x k h)) / (2 * PI * dist (upper (img x k h)) (fst pa) ^ 3)])).
  unfold point_stmts. rewrite filter_flat. apply fit0_flat. intros [q c] _. cbn [fst snd]. cbv zeta. rewrite filter_flat.
  rewrite (flat_row _ (fun j' => flat_map (fun k => filter (hits j 0) (on_row j' (point_fx 0 (fx_x (at_ xs j') q) (fx_y (at_ xs j') q) (fx_z (at_ xs j') k h)
    (fx_r (fx_x (at_ xs j') q) (fx_y (at_ xs j') q) (fx_z (at_ xs j') k h)) (Mul (Num c) Volt)))) (images n)) j _ Hj).
  - apply fit0_flat. intros k Hk. fold x. apply fit0_eq, one_row0; [reflexivity|]. intros v e He.
    destruct (image_height0 x n h k Hz Hn Hk) as (H1 & H2 & H3).
    apply (image_pixel0 v (img x k h) (fx_z x k h) q c H1 (H2 v) (H3 v) e He).
  - intros j'. rewrite filter_flat. destruct (Nat.eqb_spec j' j) as [->|N]; [reflexivity|].
    apply (none_images0 j j'); [exact N|]. intros k. apply none_row0; [reflexivity|exact N].
Qed.

Lemma vert_none0 x z j j' vs : j' <> j -> forall x2 y2 r2, filter (hits j 0) (vertex_stmts x z 0 j' vs x2 y2 r2) = [].
Proof.
  intros N. induction vs as [|w vs IH]; intros x2 y2 r2; cbn [vertex_stmts]; [reflexivity|].
  cbv zeta. rewrite filter_app, IH, app_nil_r. apply none_row0; [reflexivity|exact N].
Qed.
Lemma vert_slope0 x y (z : fx) j vs : px y = px x -> py y = py x -> 0 < Rabs (pz y) ->
  (forall v, feval exact v z = pz y) -> (forall v, near 4 (feval A v z) (pz y)) ->
  forall q,
  Forall2 fits (filter (hits j 0) (vertex_stmts x z 0 j vs (fx_x x q) (fx_y x q) (fx_r (fx_x x q) (fx_y x q) z)))
    (map (fun vw => side_size (upper y) (fst vw) (snd vw)) (combine (q :: vs) vs)).
Proof.
  intros EX EY H1 H2 H3.
  assert (FX : forall q, fx_x x q = fx_x y q) by (intros q; unfold fx_x; rewrite EX; reflexivity).
  assert (FY : forall q, fx_y x q = fx_y y q) by (intros q; unfold fx_y; rewrite EY; reflexivity).
  induction vs as [|w vs IH]; intros q; [constructor|].
  cbn [vertex_stmts combine map]. cbv zeta. rewrite filter_app.
  change (side_size (upper y) (fst (q, w)) (snd (q, w)) :: ?l) with ([side_size (upper y) q w] ++ l).
  apply Forall2_app; [|apply IH].
  replace (side_size (upper y) q w) with (Rabs 1 * side_size (upper y) q w) by (rewrite Rabs_R1; ring).
  apply one_row0; [reflexivity|]. intros v e He. rewrite !FX, !FY in He.
  apply (image_edge0 v y z q w Volt 1 H1 (H2 v) (H3 v) (or_introl (conj eq_refl eq_refl)) _ e He).
Qed.
Lemma image_polygon0 xs paths n h j : (j < length xs)%nat -> 0 < pz (at_ xs j) -> n = 0%Z \/ pz (at_ xs j) <= h ->
  fit (filter (hits j 0) (flat_map (fun q => polygon_stmts xs q 0 n h) paths)) (image_sizes (at_ xs j) (EPolygon paths n h)).
Proof.
  intros Hj Hz Hn. unfold image_sizes. cbn [seen_from sizes]. rewrite (flat_map_concat_map _ (map _ _)), map_map, <- flat_map_concat_map.
  set (x := at_ xs j) in *. 
  apply (fit0_swap _ (fun q k => map (fun vw => side_size (upper (img x k h)) (fst vw) (snd vw)) (sides q))).
  rewrite filter_flat. apply fit0_flat. intros q Hq. unfold polygon_stmts. rewrite filter_flat.
  rewrite (flat_row _ (fun j' => let x := at_ xs j' in let v := last q (0, 0) in
    flat_map (fun k => filter (hits j 0) (vertex_stmts x (fx_z x k h) 0 j' q (fx_x x v) (fx_y x v) (fx_r (fx_x x v) (fx_y x v) (fx_z x k h)))) (images n)) j _ Hj).
  - cbv zeta. apply fit0_flat. intros k Hk. fold x. destruct (image_height0 x n h k Hz Hn Hk) as (H1 & H2 & H3).
    apply fit0_eq. apply vert_slope0; [reflexivity|reflexivity|exact H1|exact H2|exact H3].
  - intros j'. cbv zeta. rewrite filter_flat. destruct (Nat.eqb_spec j' j) as [->|N]; [reflexivity|].
    apply (none_images0 j j'); [exact N|]. intros k. apply vert_none0, N.
Qed.
Lemma image_mesh0 xs points edges pots n h j : (j < length xs)%nat -> 0 < pz (at_ xs j) -> n = 0%Z \/ pz (at_ xs j) <= h ->
  fit (filter (hits j 0) (mesh_stmts xs points edges pots 0 n h)) (image_sizes (at_ xs j) (EMesh points edges pots n h)).
Proof.
  intros Hj Hz Hn. unfold image_sizes. cbn [seen_from sizes]. rewrite (flat_map_concat_map _ (map _ _)), map_map, <- flat_map_concat_map.
  set (x := at_ xs j) in *. 
  pose (F := fun (e : (nat * nat) * nat) k => [Rabs (nth (snd e) pots 0) *
    side_size (upper (img x k h)) (nth (fst (fst e)) points (0, 0)) (nth (snd (fst e)) points (0, 0))]).
  rewrite (flat_map_ext _ (fun k => flat_map (fun e => F e k) edges)) by (intros k; symmetry; apply flat_one).
  apply fit0_swap. unfold mesh_stmts. rewrite filter_flat. apply fit0_flat. intros e He. cbv zeta. rewrite filter_flat.
  set (v1 := nth (fst (fst e)) points (0, 0)). set (v2 := nth (snd (fst e)) points (0, 0)). set (c := nth (snd e) pots 0).
  rewrite (flat_row _ (fun j' => let x := at_ xs j' in flat_map (fun k => let z := fx_z x k h in
    filter (hits j 0) (on_row j' (edge_fx 0 (fx_x x v1) (fx_x x v2) (fx_y x v1) (fx_y x v2)
      (fx_r (fx_x x v1) (fx_y x v1) z) (fx_r (fx_x x v2) (fx_y x v2) z)
      (fx_l2 (fx_x x v1) (fx_x x v2) (fx_y x v1) (fx_y x v2)) z (Mul (Num c) Volt)))) (images n)) j _ Hj).
  - cbv zeta. apply fit0_flat. intros k Hk. fold x. destruct (image_height0 x n h k Hz Hn Hk) as (H1 & H2 & H3).
    apply fit0_eq, one_row0; [reflexivity|]. intros v t Ht.
    apply (image_edge0 v (img x k h) (fx_z x k h) v1 v2 (Mul (Num c) Volt) c H1 (H2 v) (H3 v) (or_intror eq_refl) _ t Ht).
  - intros j'. cbv zeta. rewrite filter_flat. destruct (Nat.eqb_spec j' j) as [->|N]; [reflexivity|].
    apply (none_images0 j j'); [exact N|]. intros k. apply none_row0; [reflexivity|exact N].
Qed.
Lemma weak_fits l m : Forall2 (fun st m => forall v, bounded 21 (feval A v (se st)) (feval exact v (se st)) (Rabs v * m)) l m -> Forall2 fits l m.
Proof. intros H. induction H as [|st c l m H _ IH]; constructor; [|exact IH]. intros v. apply (bounded_weak 21); [lia|apply H]. Qed.
Lemma upper_same x : 0 < pz x -> upper x = x.
Proof. intros H. destruct x as [a b c]. unfold upper. cbn [px py pz] in *. rewrite Rabs_pos_eq by lra. reflexivity. Qed.
Lemma geom_image0 g xs l j : (j < length xs)%nat -> 0 < pz (at_ xs j) ->
  match g with EPoint _ n h | EPolygon _ n h | EMesh _ _ _ n h => n = 0%Z \/ pz (at_ xs j) <= h | ECover _ | EOther _ => True end ->
  stmts g xs 0 = Ok l -> fit (filter (hits j 0) l) (image_sizes (at_ xs j) g).
Proof.
  intros Hj Hz Hn E. destruct g; cbn [stmts] in E.
  - injection E as <-. apply image_point0; assumption.
  - destruct (existsb _ _); [discriminate|]. injection E as <-. apply image_polygon0; assumption.
  - destruct (mesh_ok _ _ _); [|discriminate]. injection E as <-. apply image_mesh0; assumption.
  - injection E as <-. unfold image_sizes. cbn [seen_from flat_map]. rewrite app_nil_r, upper_same by exact Hz. apply fit0_eq, weak_fits, (cover_fits pw at2 p Hw Hpi); assumption.
  - injection E as <-. unfold image_sizes. cbn [seen_from flat_map]. rewrite app_nil_r, upper_same by exact Hz. apply fit0_eq, weak_fits, (other_fits pw at2 p Hw Hpi); assumption.
Qed.
Lemma system_image0 s xs t out pot j : (j < length xs)%nat -> 0 < pz (at_ xs j) -> below_cover (at_ xs j) s ->
  fel_loop A s xs 0 t pot = Ok out ->
  exists ms : list R, Forall2 (fun vs m => bounded 33 (feval A (fst vs) (se (snd vs))) (feval exact (fst vs) (se (snd vs))) m)
    (filter (fun vs => hits j 0 (snd vs)) (trace s xs 0 t)) ms /\
    total ms = image_size_total t (at_ xs j) s /\ (length ms <= image_size_count (at_ xs j) s)%nat.
Proof.
  intros Hj Hz. revert pot. induction s as [|e s IH]; intros pot Hs E.
  { exists []. repeat split; [constructor|cbn; lia]. }
  inversion Hs as [|? ? He Hs']; subst. cbn [fel_loop] in E.
  assert (F : forall v l, filter (fun vs : R * stmt => hits j 0 (snd vs)) (map (pair v) l) = map (pair v) (filter (hits j 0) l)).
  { clear. intros v l; induction l as [|a l IH]; [reflexivity|]. cbn. destruct (hits j 0 a); cbn; rewrite IH; reflexivity. }
  assert (T : image_size_total t (at_ xs j) (e :: s) = Rabs (volts t e) * total (image_sizes (at_ xs j) (egeom e)) + image_size_total t (at_ xs j) s) by reflexivity.
  assert (C : image_size_count (at_ xs j) (e :: s) = (length (image_sizes (at_ xs j) (egeom e)) + image_size_count (at_ xs j) s)%nat) by reflexivity.
  rewrite T, C. cbn [trace]. unfold volts. destruct (volt t e) as [v|].
  2:{ destruct (IH _ Hs' E) as (ms & F1 & F2 & F3). exists ms. split; [exact F1|]. split; [rewrite F2, Rabs_R0; ring|lia]. }
  destruct (Req_EM_T v 0) as [->|V].
  { destruct (IH _ Hs' E) as (ms & F1 & F2 & F3). exists ms. split; [exact F1|]. split; [rewrite F2, Rabs_R0; ring|lia]. }
  unfold fpotential in E. destruct (stmts (egeom e) xs 0) as [l|] eqn:El; [|discriminate]. cbn [bind] in E.
  destruct (IH _ Hs' E) as (ms & F1 & F2 & F3).
  destruct (geom_image0 _ _ _ _ Hj Hz He El) as (mm & G & G2 & G3).
  exists (map (Rmult (Rabs v)) mm ++ ms). split; [|split].
  - rewrite filter_app, F. apply Forall2_app; [|exact F1]. clear -G.
    induction G as [|st m l1 l2 H _ IH]; [constructor|]. constructor; [|exact IH]. apply H.
  - rewrite total_app, F2. f_equal. rewrite <- G2. clear. induction mm as [|a l IH]; cbn; [ring|].
    fold (total l). fold (total (map (Rmult (Rabs v)) l)). rewrite IH. ring.
  - rewrite app_length, map_length. lia.
Qed.

Lemma image_potential s xs t out ref j : below_cover (at_ xs j) s ->
  felectrical_potential A s xs 0 t = Ok out -> electrical_potential s xs 0 t = Ok ref ->
  (j < length xs)%nat -> 0 < pz (at_ xs j) ->
  Rabs (cell out j 0 - cell ref j 0) <=
  gam (image_size_count (at_ xs j) s + 33) * image_size_total t (at_ xs j) s.
Proof.
  intros Hs E E' Hj Hz. rewrite <- felectrical_exact in E'.
  destruct (system_image0 s xs t out _ j Hj Hz Hs E) as (ms & F & T1 & T2).
  apply loop_trace in E. apply loop_trace in E'.
  destruct (zeros_inside 0 (length xs) j 0 Hj ltac:(lia)) as [Z1 Z2].
  rewrite E, E', (run_cell A _ j 0 _ Z1), (run_cell exact _ j 0 _ Z1), Z2.
  rewrite fsum_exact, Rplus_0_l, <- T1.
  set (l := filter _ _) in *. clearbody l.
  pose (g := fun q : (R * stmt) * R => ((feval A (fst (fst q)) (se (snd (fst q))), feval exact (fst (fst q)) (se (snd (fst q)))), snd q)).
  pose (pl := map g (combine l ms)).
  assert (M1 : map (fun p => fst (fst p)) pl = map (fun vs => feval A (fst vs) (se (snd vs))) l /\
    map (fun p => snd (fst p)) pl = map (fun vs => feval exact (fst vs) (se (snd vs))) l /\ map snd pl = ms /\
    (forall q, In q pl -> bounded 33 (fst (fst q)) (snd (fst q)) (snd q)) /\ length pl = length ms).
  { unfold pl. clear -F. induction F as [|vs m l ms H F IH]; [do 3 (split; [reflexivity|]); split; [intros q []|reflexivity]|].
    destruct IH as (I1 & I2 & I3 & I4 & I5). cbn [combine map length].
    split; [f_equal; exact I1|]. split; [f_equal; exact I2|]. split; [f_equal; exact I3|].
    split; [|f_equal; exact I5]. intros q [<-|Hq]; [exact H|apply I4, Hq]. }
  destruct M1 as (M1 & M2 & M3 & HP & M5). rewrite <- M1, <- M2, <- M3.
  assert (B0 : bounded (0 + 33) 0 0 0) by (split; rewrite ?Rminus_0_r, Rabs_R0; lra).
  pose proof (fsum_bounded A 33 pl (rnd_A pw at2 p) HP 0 0 0 0 B0) as Q. rewrite !Rplus_0_l in Q.
  apply (bounded_weak _ (image_size_count (at_ xs j) s + 33)) in Q; [|cbn; lia]. apply Q.
Qed.
End sys.

Lemma image_million0 pw at2 p : good_pow pw -> good_pi p -> good_atan2 at2 -> forall s xs t out ref j, below_cover (at_ xs j) s ->
  felectrical_potential (b64x pw at2 p) s xs 0 t = Ok out -> electrical_potential s xs 0 t = Ok ref ->
  (j < length xs)%nat -> 0 < pz (at_ xs j) ->
  (image_size_count (at_ xs j) s <= 10 ^ 6)%nat ->
  Rabs (cell out j 0 - cell ref j 0) <= 3 / 10 ^ 10 * image_size_total t (at_ xs j) s.
Proof.
  intros Hw Hp Ha s xs t out ref j Hs E E' Hj Hz Hn.
  eapply Rle_trans; [apply (image_potential pw at2 p Hw Hp Ha s xs t out ref j); assumption|].
  destruct (system_image0 pw at2 p Hw Hp Ha s xs t out _ j Hj Hz Hs E) as (ms & F & T1 & _).
  assert (T0 : 0 <= image_size_total t (at_ xs j) s).
  { rewrite <- T1. clear -F. induction F as [|vs m l ms [_ H] _ IH]; cbn; [lra|]. fold (total ms).
    pose proof (Rabs_pos (feval exact (fst vs) (se (snd vs)))). lra. }
  apply Rmult_le_compat_r; [exact T0|].
  set (n := (image_size_count (at_ xs j) s + 33)%nat) in *.
  assert (N : INR n <= 1000033).
  { unfold n. rewrite plus_INR. apply le_INR in Hn. rewrite pow_INR in Hn.
    assert (E10 : INR 10 = 10) by (cbn; lra). assert (E33 : INR 33 = 33) by (cbn; lra). rewrite E10 in Hn. rewrite E33. lra. }
  assert (U : u64 <= 1 / 10 ^ 15 * (112 / 1000)).
  { unfold u64. apply Rmult_le_reg_l with (2 ^ 53); [apply pow_lt; lra|]. rewrite Rinv_r by (apply pow_nonzero; lra). lra. }
  pose proof u_pos as U0. pose proof (pos_INR n) as N0.
  assert (B : INR n * u64 <= 1000033 * (1 / 10 ^ 15 * (112 / 1000))) by (apply Rmult_le_compat; lra).
  eapply Rle_trans; [apply gam_linear|]; lra.
Qed.
