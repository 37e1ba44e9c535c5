(** Proof of C181: the rounding error of the derivatives of the potential of a system. *)
From Flocq Require Import Core.
From Verif Require Import Base ModelExpr ModelField ModelFloat ModelFloatExpr ModelFloatField SpecFloat SpecFloat2 SpecFloat3
  ProofFloat ProofFloat2 ProofFloat3 ProofFloat4 ProofFloat5 ProofFloat6 ProofFloat7 ProofFloat8 ProofFloat9.
Import ListNotations.
Open Scope R_scope.

Section sys.
Variables (pw : R -> nat -> R) (at2 : R -> R -> R) (p : R).
Hypotheses (Hw : good_pow pw) (Hpi : good_pi p).
Let A := b64x pw at2 p.
Variables (d i : nat).
Hypotheses (Hd : (1 <= d <= 5)%nat) (Hi : (i < 2 * d + 1)%nat).
Let fits (st : stmt) (m : R) : Prop :=
  forall v, bounded (roundings d) (feval A v (se st)) (feval exact v (se st)) (Rabs v * m).

Lemma roundings_83 : (83 <= roundings d)%nat.
Proof. clear -Hd. destruct d as [|[|[|[|[|[|d']]]]]]; cbn; lia. Qed.
Lemma slope_point xs pixels h j : (j < length xs)%nat -> 0 < pz (at_ xs j) ->
  Forall2 fits (filter (hits j i) (point_stmts xs pixels d 0 h)) (slopes d i (at_ xs j) (EPoint pixels 0 h)).
Proof.
  intros Hj Hz. rewrite pixel_hits by (lia || assumption). cbn [slopes].
  assert (L : forall q a, (i < length (pixel_fx (at_ xs j) d h (q, a)))%nat).
  { intros q a. clear -Hd Hi. destruct d as [|[|[|[|[|[|d']]]]]]; try lia; cbn in *; lia. }
  induction pixels as [|[q a] l IH]; [constructor|]. constructor; [|exact IH]. intros v. cbn [se fst snd].
  pose proof roundings_83.
  replace (Rabs v * (amp d * (Rabs a / (2 * PI * dist (at_ xs j) q ^ (d + 2)))))
    with (amp d * (Rabs (v * a) / (2 * PI * dist (at_ xs j) q ^ (d + 2)))) by (rewrite Rabs_mult; unfold Rdiv; ring).
  apply (bounded_weak 83); [assumption|].
  apply (pixel_entry A d v (at_ xs j) q h a (nth i (pixel_fx (at_ xs j) d h (q, a)) Volt) (rnd_A pw at2 p) (pow_A pw at2 p Hw) (pi_A pw at2 p Hpi));
    [lia|exact Hz|]. apply (nth_In (pixel_fx (at_ xs j) d h (q, a))), L.
Qed.

Lemma edge_len x1 x2 y1 y2 r1 r2 l2 z a : length (edge_fx d x1 x2 y1 y2 r1 r2 l2 z a) = (2 * d + 1)%nat.
Proof. clear -Hd. destruct d as [|[|[|[|[|[|d']]]]]]; try lia; reflexivity. Qed.
Lemma edge_fits_d x q1 q2 h a c j j' : 0 < pz x -> clear_of x (q1, q2) -> a = Volt /\ c = 1 \/ a = Mul (Num c) Volt ->
  let z := fx_z x 0 h in
  let l := on_row j' (edge_fx d (fx_x x q1) (fx_x x q2) (fx_y x q1) (fx_y x q2)
                (fx_r (fx_x x q1) (fx_y x q1) z) (fx_r (fx_x x q2) (fx_y x q2) z)
                (fx_l2 (fx_x x q1) (fx_x x q2) (fx_y x q1) (fx_y x q2)) z a) in
  (j' = j -> Forall2 fits (filter (hits j i) l) [Rabs c * side_slope d x q1 q2]) /\
  (j' <> j -> filter (hits j i) l = []).
Proof.
  intros Hz Hcl Hc z l. unfold l. rewrite hits_on_row by (rewrite edge_len; exact Hi). split.
  - intros ->. rewrite Nat.eqb_refl. constructor; [|constructor]. intros v. cbn [se].
    apply (edge_slope pw at2 p Hw Hpi d v x q1 q2 h a c Hd Hz Hcl Hc). apply nth_In. rewrite edge_len. exact Hi.
  - intros N. apply Nat.eqb_neq in N. rewrite N. reflexivity.
Qed.
Lemma vertex_none x z j j' vs : j' <> j -> forall x2 y2 r2, filter (hits j i) (vertex_stmts x z d j' vs x2 y2 r2) = [].
Proof.
  intros N. induction vs as [|w vs IH]; intros x2 y2 r2; cbn [vertex_stmts]; [reflexivity|].
  cbv zeta. rewrite filter_app, IH, app_nil_r, hits_on_row by (rewrite edge_len; exact Hi).
  apply Nat.eqb_neq in N. rewrite N. reflexivity.
Qed.
Lemma vertex_slope x h j vs : 0 < pz x -> forall q, Forall (clear_of x) (combine (q :: vs) vs) ->
  Forall2 fits (filter (hits j i) (vertex_stmts x (fx_z x 0 h) d j vs (fx_x x q) (fx_y x q) (fx_r (fx_x x q) (fx_y x q) (fx_z x 0 h))))
    (map (fun vw => side_slope d x (fst vw) (snd vw)) (combine (q :: vs) vs)).
Proof.
  intros Hz. induction vs as [|w vs IH]; intros q Hcl; [constructor|].
  cbn [combine] in Hcl. inversion Hcl as [|? ? C1 C2]; subst.
  cbn [vertex_stmts combine map]. cbv zeta. rewrite filter_app.
  change (side_slope d x (fst (q, w)) (snd (q, w)) :: ?l) with ([side_slope d x q w] ++ l).
  apply Forall2_app; [|apply IH, C2].
  replace (side_slope d x q w) with (Rabs 1 * side_slope d x q w) by (rewrite Rabs_R1; ring).
  apply (edge_fits_d x q w h Volt 1 j j Hz C1); [left; auto|reflexivity].
Qed.
Lemma slope_polygon xs paths h j : (j < length xs)%nat -> 0 < pz (at_ xs j) ->
  Forall (clear_of (at_ xs j)) (flat_map sides paths) ->
  Forall2 fits (filter (hits j i) (flat_map (fun q => polygon_stmts xs q d 0 h) paths))
    (slopes d i (at_ xs j) (EPolygon paths 0 h)).
Proof.
  intros Hj Hz. cbn [slopes]. induction paths as [|q l IH]; intros Hcl; [constructor|].
  cbn [flat_map] in *. apply Forall_app in Hcl as [C1 C2]. rewrite filter_app. apply Forall2_app; [|exact (IH C2)].
  unfold polygon_stmts. rewrite filter_flat.
  rewrite (flat_row _ (fun j' => let x := at_ xs j' in let v := last q (0, 0) in
    filter (hits j i) (vertex_stmts x (fx_z x 0 h) d j' q (fx_x x v) (fx_y x v) (fx_r (fx_x x v) (fx_y x v) (fx_z x 0 h)))) j _ Hj).
  - cbv zeta. apply vertex_slope; [exact Hz|exact C1].
  - intros j'. cbv zeta. change (images 0) with [0%Z]. cbn [flat_map]. rewrite app_nil_r.
    destruct (Nat.eqb_spec j' j) as [->|N]; [reflexivity|]. apply vertex_none, N.
Qed.
Lemma slope_mesh xs points edges pots h j : (j < length xs)%nat -> 0 < pz (at_ xs j) ->
  Forall (clear_of (at_ xs j)) (sides_of (EMesh points edges pots 0 h)) ->
  Forall2 fits (filter (hits j i) (mesh_stmts xs points edges pots d 0 h))
    (slopes d i (at_ xs j) (EMesh points edges pots 0 h)).
Proof.
  intros Hj Hz. cbn [slopes sides_of]. unfold mesh_stmts. induction edges as [|[[a b] c] l IH]; intros Hcl; [constructor|].
  cbn [flat_map map fst snd] in *. inversion Hcl as [|? ? C1 C2]; subst. rewrite filter_app.
  change (Rabs (nth c pots 0) * side_slope d (at_ xs j) (nth a points (0, 0)) (nth b points (0, 0)) :: ?r)
    with ([Rabs (nth c pots 0) * side_slope d (at_ xs j) (nth a points (0, 0)) (nth b points (0, 0))] ++ r).
  apply Forall2_app; [|exact (IH C2)]. rewrite filter_flat.
  rewrite (flat_row _ (fun j' => let x := at_ xs j' in
    let z := fx_z x 0 h in let v1 := nth a points (0, 0) in let v2 := nth b points (0, 0) in
    filter (hits j i) (on_row j' (edge_fx d (fx_x x v1) (fx_x x v2) (fx_y x v1) (fx_y x v2)
      (fx_r (fx_x x v1) (fx_y x v1) z) (fx_r (fx_x x v2) (fx_y x v2) z)
      (fx_l2 (fx_x x v1) (fx_x x v2) (fx_y x v1) (fx_y x v2)) z (Mul (Num (nth c pots 0)) Volt)))) j _ Hj).
  - cbv zeta. apply (edge_fits_d (at_ xs j) (nth a points (0, 0)) (nth b points (0, 0)) h _ (nth c pots 0) j j Hz C1); [right; reflexivity|reflexivity].
  - intros j'. cbv zeta. change (images 0) with [0%Z]. cbn [flat_map]. rewrite app_nil_r.
    destruct (Nat.eqb_spec j' j) as [->|N]; [reflexivity|]. rewrite hits_on_row by (rewrite edge_len; exact Hi).
    apply Nat.eqb_neq in N. rewrite N. reflexivity.
Qed.
Lemma cls_slope j k e m n : (n <= 83)%nat -> cls e = Some n -> (forall v, Rabs (feval exact v e) = Rabs v * m) ->
  fits (Stmt j k e) m.
Proof.
  intros Hk C V v. cbn [se]. pose proof roundings_83. apply (bounded_weak n); [lia|]. rewrite <- V.
  split; [|apply Rle_refl]. apply near_abs, cls_near; [apply rnd_A|apply (pow_A pw at2 p Hw)|apply (pi_A pw at2 p Hpi)|exact C].
Qed.
Lemma slope_cover xs h j : (j < length xs)%nat ->
  Forall2 fits (filter (hits j i) (cover_stmts xs h d)) (slopes d i (at_ xs j) (ECover h)).
Proof.
  intros Hj. destruct (Nat.eq_dec d 1) as [E|E].
  2:{ assert (E1 : cover_stmts xs h d = []) by (destruct d as [|[|d']]; [lia|lia|reflexivity]).
      assert (E2 : slopes d i (at_ xs j) (ECover h) = []) by (cbn [slopes]; apply Nat.eqb_neq in E; rewrite E; reflexivity).
      rewrite E1, E2. constructor. }
  rewrite E. cbn [cover_stmts slopes Nat.eqb andb]. rewrite map_flat, filter_flat.
  rewrite (flat_row _ (fun j' => if (i =? 2)%nat then [Stmt j' 2 (Volt / Num h)%fx] else []) j _ Hj).
  - destruct (i =? 2)%nat; constructor; [|constructor]. apply (cls_slope j 2 _ _ 1); [lia|reflexivity|].
    intros v. cbn [feval exact rnd]. rewrite <- Rabs_mult. f_equal. unfold Rdiv. ring.
  - intros j'. cbn [filter]. unfold hits; cbn [sj si]. rewrite (Nat.eqb_sym 2 i).
    destruct (j' =? j)%nat; destruct (i =? 2)%nat; reflexivity.
Qed.
Lemma slope_other xs u j : (j < length xs)%nat ->
  Forall2 fits (filter (hits j i) (other_stmts xs (u d))) (slopes d i (at_ xs j) (EOther u)).
Proof.
  intros Hj. unfold other_stmts. cbn [slopes]. rewrite filter_flat.
  rewrite (flat_row _ (fun j' => match nth_error (u d (at_ xs j')) i with Some c => [Stmt j' i (Volt * Num c)%fx] | None => [] end) j _ Hj).
  - destruct (nth_error (u d (at_ xs j)) i) as [c|]; constructor; [|constructor].
    apply (cls_slope j i _ _ 1); [lia|reflexivity|]. intros v. cbn [feval exact rnd]. apply Rabs_mult.
  - intros j'. set (l := u d (at_ xs j')).
    destruct (nth_error l i) as [c|] eqn:E.
    + assert (Hl : (i < length l)%nat) by (apply nth_error_Some; rewrite E; discriminate).
      rewrite hits_on_row by (rewrite map_length; exact Hl). destruct (Nat.eqb_spec j' j) as [->|]; [|reflexivity].
      f_equal. f_equal. apply nth_error_nth. rewrite nth_error_map, E. reflexivity.
    + apply nth_error_None in E.
      replace (if (j' =? j)%nat then [] else []) with (@nil stmt) by (destruct (j' =? j)%nat; reflexivity).
      unfold on_row. set (m := map _ l). assert (Lm : (length m <= i)%nat) by (unfold m; rewrite map_length; exact E). clearbody m.
      destruct (filter _ _) as [|st r] eqn:F; [reflexivity|].
      assert (In st (filter (hits j i) (map (fun ie : nat * fx => Stmt j' (fst ie) (snd ie)) (combine (seq 0 (length m)) m)))) as Hin by (rewrite F; left; reflexivity).
      apply filter_In in Hin as [Hin Hh]. apply in_map_iff in Hin as ([k e] & <- & Hk). apply in_combine_l, in_seq in Hk.
      unfold hits in Hh. cbn [sj si fst snd] in Hh. apply andb_prop in Hh as [_ Hh]. apply Nat.eqb_eq in Hh. lia.
Qed.

Lemma geom_slope g xs l j : (j < length xs)%nat -> 0 < pz (at_ xs j) ->
  match g with EPoint _ n _ | EPolygon _ n _ | EMesh _ _ _ n _ => n = 0%Z | ECover _ | EOther _ => True end ->
  Forall (clear_of (at_ xs j)) (sides_of g) ->
  stmts g xs d = Ok l -> Forall2 fits (filter (hits j i) l) (slopes d i (at_ xs j) g).
Proof.
  intros Hj Hz Hn Hcl E. destruct g; cbn [stmts] in E.
  - subst. injection E as <-. apply slope_point; assumption.
  - subst. destruct (existsb _ _); [discriminate|]. injection E as <-. apply slope_polygon; assumption.
  - subst. destruct (mesh_ok _ _ _); [|discriminate]. injection E as <-. apply slope_mesh; assumption.
  - injection E as <-. apply slope_cover; assumption.
  - injection E as <-. apply slope_other; assumption.
Qed.

Lemma system_slope s xs t out pot j : (j < length xs)%nat -> 0 < pz (at_ xs j) -> no_images s -> clear (at_ xs j) s ->
  fel_loop A s xs d t pot = Ok out ->
  exists ms : list R, Forall2 (fun vs m => bounded (roundings d) (feval A (fst vs) (se (snd vs))) (feval exact (fst vs) (se (snd vs))) m)
    (filter (fun vs => hits j i (snd vs)) (trace s xs d t)) ms /\
    total ms = slope_total d i t (at_ xs j) s /\ (length ms <= slope_count d i (at_ xs j) s)%nat.
Proof.
  intros Hj Hz. revert pot. induction s as [|e s IH]; intros pot Hs Hcl E.
  { exists []. repeat split; [constructor|cbn; lia]. }
  inversion Hs as [|? ? He Hs']; subst. inversion Hcl as [|? ? Ce Cs]; subst. cbn [fel_loop] in E.
  assert (F : forall v l, filter (fun vs : R * stmt => hits j i (snd vs)) (map (pair v) l) = map (pair v) (filter (hits j i) l)).
  { clear. intros v l; induction l as [|a l IH]; [reflexivity|]. cbn. destruct (hits j i a); cbn; rewrite IH; reflexivity. }
  assert (T : slope_total d i t (at_ xs j) (e :: s) = Rabs (volts t e) * total (slopes d i (at_ xs j) (egeom e)) + slope_total d i t (at_ xs j) s) by reflexivity.
  assert (C : slope_count d i (at_ xs j) (e :: s) = (length (slopes d i (at_ xs j) (egeom e)) + slope_count d i (at_ xs j) s)%nat) by reflexivity.
  rewrite T, C. cbn [trace]. unfold volts. destruct (volt t e) as [v|].
  2:{ destruct (IH _ Hs' Cs E) as (ms & F1 & F2 & F3). exists ms. split; [exact F1|]. split; [rewrite F2, Rabs_R0; ring|lia]. }
  destruct (Req_EM_T v 0) as [->|V].
  { destruct (IH _ Hs' Cs E) as (ms & F1 & F2 & F3). exists ms. split; [exact F1|]. split; [rewrite F2, Rabs_R0; ring|lia]. }
  unfold fpotential in E. destruct (stmts (egeom e) xs d) as [l|] eqn:El; [|discriminate]. cbn [bind] in E.
  destruct (IH _ Hs' Cs E) as (ms & F1 & F2 & F3).
  pose proof (geom_slope _ _ _ _ Hj Hz He Ce El) as G.
  exists (map (Rmult (Rabs v)) (slopes d i (at_ xs j) (egeom e)) ++ ms). split; [|split].
  - rewrite filter_app, F. apply Forall2_app; [|exact F1]. clear -G.
    induction G as [|st m l1 l2 H _ IH]; [constructor|]. constructor; [|exact IH]. apply H.
  - rewrite total_app, F2. f_equal. clear. induction (slopes _ _ _ _) as [|a l IH]; cbn; [ring|].
    fold (total l). fold (total (map (Rmult (Rabs v)) l)). rewrite IH. ring.
  - rewrite app_length, map_length. lia.
Qed.

Lemma any_bounded s xs t out ref j : no_images s -> 
  felectrical_potential A s xs d t = Ok out -> electrical_potential s xs d t = Ok ref ->
  (j < length xs)%nat -> 0 < pz (at_ xs j) -> clear (at_ xs j) s ->
  bounded (slope_count d i (at_ xs j) s + roundings d) (cell out j i) (cell ref j i) (slope_total d i t (at_ xs j) s).
Proof.
  intros Hs E E' Hj Hz Hcl. rewrite <- felectrical_exact in E'.
  destruct (system_slope s xs t out _ j Hj Hz Hs Hcl E) as (ms & F & T1 & T2).
  apply loop_trace in E. apply loop_trace in E'.
  destruct (zeros_inside d (length xs) j i Hj Hi) as [Z1 Z2].
  rewrite E, E', (run_cell A _ j i _ Z1), (run_cell exact _ j i _ Z1), Z2.
  rewrite fsum_exact, Rplus_0_l, <- T1.
  set (l := filter _ _) in *. clearbody l.
  pose (g := fun q : (R * stmt) * R => ((feval A (fst (fst q)) (se (snd (fst q))), feval exact (fst (fst q)) (se (snd (fst q)))), snd q)).
  pose (pl := map g (combine l ms)).
  assert (M1 : map (fun p => fst (fst p)) pl = map (fun vs => feval A (fst vs) (se (snd vs))) l /\
    map (fun p => snd (fst p)) pl = map (fun vs => feval exact (fst vs) (se (snd vs))) l /\ map snd pl = ms /\
    (forall q, In q pl -> bounded (roundings d) (fst (fst q)) (snd (fst q)) (snd q)) /\ length pl = length ms).
  { unfold pl. clear -F. induction F as [|vs m l ms H F IH]; [do 3 (split; [reflexivity|]); split; [intros q []|reflexivity]|].
    destruct IH as (I1 & I2 & I3 & I4 & I5). cbn [combine map length].
    split; [f_equal; exact I1|]. split; [f_equal; exact I2|]. split; [f_equal; exact I3|].
    split; [|f_equal; exact I5]. intros q [<-|Hq]; [exact H|apply I4, Hq]. }
  destruct M1 as (M1 & M2 & M3 & HP & M5). rewrite <- M1, <- M2, <- M3.
  assert (B0 : bounded (0 + roundings d) 0 0 0) by (split; rewrite ?Rminus_0_r, Rabs_R0; lra).
  pose proof (fsum_bounded A (roundings d) pl (rnd_A pw at2 p) HP 0 0 0 0 B0) as Q. rewrite !Rplus_0_l in Q.
  apply (bounded_weak _ (slope_count d i (at_ xs j) s + roundings d)) in Q; [|cbn; lia]. apply Q.
Qed.
Lemma any_slope s xs t out ref j : no_images s -> 
  felectrical_potential A s xs d t = Ok out -> electrical_potential s xs d t = Ok ref ->
  (j < length xs)%nat -> 0 < pz (at_ xs j) -> clear (at_ xs j) s ->
  Rabs (cell out j i - cell ref j i) <=
  gam (slope_count d i (at_ xs j) s + roundings d) * slope_total d i t (at_ xs j) s.
Proof. intros Hs E E' Hj Hz Hcl. exact (proj1 (any_bounded s xs t out ref j Hs E E' Hj Hz Hcl)). Qed.
End sys.

(** points far above the plane compared to the electrodes *)
Lemma spread_height x v w : 4 * pz x ^ 2 <= spread x v w.
Proof.
  unfold spread, dist. set (a := px x - fst v). set (b := py x - snd v). set (c := px x - fst w). set (e := py x - snd w). set (z := pz x).
  replace (fst v - fst w) with (c - a) by (unfold c, a; ring). replace (snd v - snd w) with (e - b) by (unfold e, b; ring).
  assert (P1 : 0 <= a ^ 2 + b ^ 2 + z ^ 2) by (pose proof (pow2_ge_0 a); pose proof (pow2_ge_0 b); pose proof (pow2_ge_0 z); lra).
  assert (P2 : 0 <= c ^ 2 + e ^ 2 + z ^ 2) by (pose proof (pow2_ge_0 c); pose proof (pow2_ge_0 e); pose proof (pow2_ge_0 z); lra).
  pose proof (sqrt_sqrt _ P1) as S1. pose proof (sqrt_sqrt _ P2) as S2.
  pose proof (sqrt_pos (a ^ 2 + b ^ 2 + z ^ 2)) as Q1. pose proof (sqrt_pos (c ^ 2 + e ^ 2 + z ^ 2)) as Q2.
  set (r := sqrt (a ^ 2 + b ^ 2 + z ^ 2)) in *. set (q := sqrt (c ^ 2 + e ^ 2 + z ^ 2)) in *.
  assert (K : z ^ 2 - a * c - b * e <= r * q).
  { destruct (Rle_dec (z ^ 2 - a * c - b * e) 0) as [N|N]; [pose proof (Rmult_le_pos _ _ Q1 Q2); lra|].
    apply Rsqr_incr_0_var; [|apply Rmult_le_pos; assumption]. rewrite !Rsqr_pow2, Rpow_mult_distr.
    replace (r ^ 2) with (r * r) by ring. replace (q ^ 2) with (q * q) by ring. rewrite S1, S2.
    assert (I : (a ^ 2 + b ^ 2 + z ^ 2) * (c ^ 2 + e ^ 2 + z ^ 2) - (z ^ 2 - a * c - b * e) ^ 2 =
      (a * e - b * c) ^ 2 + (a * z + z * c) ^ 2 + (b * z + z * e) ^ 2) by ring.
    pose proof (pow2_ge_0 (a * e - b * c)). pose proof (pow2_ge_0 (a * z + z * c)). pose proof (pow2_ge_0 (b * z + z * e)). lra. }
  replace ((r + q) ^ 2) with (r * r + q * q + 2 * (r * q)) by ring. rewrite S1, S2. nra.
Qed.
Lemma within_clear x v w : 0 < pz x -> dist x v <= 10 ^ 6 * pz x -> dist x w <= 10 ^ 6 * pz x -> clear_of x (v, w).
Proof.
  intros Hz H1 H2. unfold clear_of. cbn [fst snd]. pose proof (spread_height x v w) as S.
  assert (Z2 : 0 < pz x ^ 2) by (apply pow_lt, Hz). split; [lra|].
  assert (F : 0 <= far x v w <= 10 ^ 6 * pz x).
  { split; [eapply Rle_trans; [|apply Rmax_l]; apply sqrt_pos|]. apply Rmax_lub; assumption. }
  apply Rle_trans with ((10 ^ 6 * pz x) ^ 2); [apply pow_incr, F|]. rewrite Rpow_mult_distr. nra.
Qed.
Lemma slope_million pw at2 p : good_pow pw -> good_pi p -> forall d i s xs t out ref j, (1 <= d <= 5)%nat -> (i < 2 * d + 1)%nat ->
  no_images s ->
  felectrical_potential (b64x pw at2 p) s xs d t = Ok out -> electrical_potential s xs d t = Ok ref ->
  (j < length xs)%nat -> 0 < pz (at_ xs j) -> clear (at_ xs j) s ->
  (slope_count d i (at_ xs j) s <= 10 ^ 6)%nat ->
  Rabs (cell out j i - cell ref j i) <= 3 / 10 ^ 10 * slope_total d i t (at_ xs j) s.
Proof.
  intros Hw Hp d i s xs t out ref j Hd Hi Hs E E' Hj Hz Hcl Hn.
  eapply Rle_trans; [apply (any_slope pw at2 p Hw Hp d i Hd Hi s xs t out ref j); assumption|].
  destruct (system_slope pw at2 p Hw Hp d i Hd Hi s xs t out _ j Hj Hz Hs Hcl E) as (ms & F & T1 & _).
  assert (T0 : 0 <= slope_total d i t (at_ xs j) s).
  { rewrite <- T1. clear -F. induction F as [|vs m l ms [_ H] _ IH]; cbn; [lra|]. fold (total ms).
    pose proof (Rabs_pos (feval exact (fst vs) (se (snd vs)))). lra. }
  apply Rmult_le_compat_r; [exact T0|].
  set (n := (slope_count d i (at_ xs j) s + roundings d)%nat) in *.
  assert (RD : (roundings d <= 242)%nat) by (clear -Hd; destruct d as [|[|[|[|[|[|d]]]]]]; cbn; lia).
  assert (N : INR n <= 1000242).
  { unfold n. rewrite plus_INR. apply le_INR in Hn. rewrite pow_INR in Hn. apply le_INR in RD.
    assert (E10 : INR 10 = 10) by (cbn; lra). assert (E21 : INR 242 = 242) by (rewrite INR_IZR_INZ; reflexivity).
    rewrite E10 in Hn. rewrite E21 in RD. lra. }
  assert (U : u64 <= 1 / 10 ^ 15 * (112 / 1000)).
  { unfold u64. apply Rmult_le_reg_l with (2 ^ 53); [apply pow_lt; lra|]. rewrite Rinv_r by (apply pow_nonzero; lra). lra. }
  pose proof u_pos as U0. pose proof (pos_INR n) as N0.
  assert (B : INR n * u64 <= 1000242 * (1 / 10 ^ 15 * (112 / 1000))) by (apply Rmult_le_compat; lra).
  eapply Rle_trans; [apply gam_linear|]; lra.
Qed.
