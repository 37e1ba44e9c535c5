(** Area, centroid and the point approximation of convex polygons. *)
From Coquelicot Require Import Coquelicot.
From Coq Require Import Permutation.
From Verif Require Import Base ModelExpr ModelField ModelGeom SpecField SpecPoly SpecMax SpecCentre SpecTile ProofField ProofDeriv ProofPoly ProofEdgeSym ProofPoly2 ProofPoly3 ProofPseudo ProofMax ProofMax2 ProofMax3 ProofMax4 ProofMax5 ProofMax6.
Open Scope R_scope.
Notation length := List.length.

(** ** slices of any function of the height *)
Section Slices.
Variable F : R -> R -> R.
Definition gside (e : p2 * p2) (x : R) : R :=
  (if Rlt_dec (fst (snd e)) x then if Rlt_dec x (fst (fst e)) then F x (height e x) else 0 else 0) -
  (if Rlt_dec (fst (fst e)) x then if Rlt_dec x (fst (snd e)) then F x (height e x) else 0 else 0).
Lemma gside_left e x : leftward x e -> gside e x = F x (height e x).
Proof. intros [A B]. unfold gside. repeat destruct (Rlt_dec _ _); try lra. Qed.
Lemma gside_right e x : rightward x e -> gside e x = - F x (height e x).
Proof. intros [A B]. unfold gside. repeat destruct (Rlt_dec _ _); try lra. Qed.
Lemma gside_none e x : ~ leftward x e -> ~ rightward x e -> gside e x = 0.
Proof. intros A B. unfold leftward, rightward in *. unfold gside. repeat destruct (Rlt_dec _ _); try lra; exfalso; try (apply A; lra); apply B; lra. Qed.
Lemma gside_int X1 X2 (e : p2 * p2) (v : R) : X1 < fst (fst e) < X2 -> X1 < fst (snd e) < X2 ->
  (fst (fst e) <> fst (snd e) -> is_RInt (fun t => F t (height e t)) (fst (fst e)) (fst (snd e)) v) -> (fst (fst e) = fst (snd e) -> v = 0) ->
  is_RInt (gside e) X1 X2 (- v).
Proof.
  intros A B I0 V0. destruct (Rtotal_order (fst (fst e)) (fst (snd e))) as [L|[E|L]].
  - apply (rint_three _ _ (fst (fst e)) (fst (snd e))).
    + apply rint_zero; [lra|]. intros x Hx. apply gside_none; intros [? ?]; lra.
    + pose proof (I0 ltac:(apply Rlt_not_eq; exact L)) as I. apply (is_RInt_opp (V := R_NormedModule)) in I.
      match type of I with is_RInt ?f ?a ?b ?v => match goal with |- is_RInt ?g _ _ ?w => apply (is_RInt_ext (V := R_NormedModule) f g); [|exact I] end end.
      intros x. rewrite Rmin_left, Rmax_right by lra. intros Hx. symmetry. apply gside_right. exact Hx.
    + apply rint_zero; [lra|]. intros x Hx. apply gside_none; intros [? ?]; lra.
  - rewrite (V0 E), Ropp_0. apply rint_zero; [lra|]. intros x Hx. apply gside_none; intros [? ?]; lra.
  - apply (rint_three _ _ (fst (snd e)) (fst (fst e))).
    + apply rint_zero; [lra|]. intros x Hx. apply gside_none; intros [? ?]; lra.
    + pose proof (I0 ltac:(apply Rgt_not_eq; exact L)) as I. apply (is_RInt_swap (V := R_NormedModule)) in I.
      match type of I with is_RInt ?f ?a ?b ?v => match goal with |- is_RInt ?g _ _ ?w => apply (is_RInt_ext (V := R_NormedModule) f g); [|exact I] end end.
      intros x. rewrite Rmin_left, Rmax_right by lra. intros Hx. rewrite gside_left by exact Hx. reflexivity.
    + apply rint_zero; [lra|]. intros x Hx. apply gside_none; intros [? ?]; lra.
Qed.
Definition gslices (P : list p2) (x : R) : R := sum_over (edges_of P) (fun e => gside e x).
Lemma gslices_both P x lo up : convex P -> In lo (edges_of P) -> In up (edges_of P) -> rightward x lo -> leftward x up ->
  gslices P x = F x (height up x) - F x (height lo x).
Proof.
  intros C Hl Hu Rl Lu. pose proof (edges_nodup P (cv_ne P C) (proj1 C)) as N.
  set (fl := fun e : p2 * p2 => if Rlt_dec (fst (snd e)) x then if Rlt_dec x (fst (fst e)) then F x (height e x) else 0 else 0).
  set (fr := fun e : p2 * p2 => if Rlt_dec (fst (fst e)) x then if Rlt_dec x (fst (snd e)) then F x (height e x) else 0 else 0).
  assert (S : gslices P x = sum_over (edges_of P) fl - sum_over (edges_of P) fr).
  { unfold gslices, gside. fold fl fr. unfold sum_over. generalize (edges_of P). intros l. induction l as [|e l IH]; cbn [map sumR]; [ring|]. rewrite IH. unfold fl, fr. ring. }
  rewrite S, (sum_single _ fl up N Hu), (sum_single _ fr lo N Hl).
  - unfold fl, fr. unfold leftward, rightward in *. repeat destruct (Rlt_dec _ _); try lra.
  - intros d Hd D. unfold fr. destruct (Rlt_dec (fst (fst d)) x) as [A|A]; [|reflexivity]. destruct (Rlt_dec x (fst (snd d))) as [B|B]; [|reflexivity]. exfalso. apply D. apply (rightward_unique P C lo d x Hl Hd Rl). split; assumption.
  - intros d Hd D. unfold fl. destruct (Rlt_dec (fst (snd d)) x) as [A|A]; [|reflexivity]. destruct (Rlt_dec x (fst (fst d))) as [B|B]; [|reflexivity]. exfalso. apply D. apply (leftward_unique P C up d x Hu Hd Lu). split; assumption.
Qed.
Lemma gslice_is P x lo hi : convex P -> free x P -> slice_between P x lo hi -> gslices P x = F x hi - F x lo.
Proof.
  intros C FR [L SB]. destruct (dec_in (edges_of P) x) as [(up & Hu & Lu)|N].
  - destruct (proj2 (both_ways P C x FR) (ex_intro _ up (conj Hu Lu))) as (lo' & Hl & Rl).
    rewrite (gslices_both P x lo' up C Hl Hu Rl Lu). pose proof (slice_order P C lo' up x Hl Hu Rl Lu) as O.
    apply (same_interval (height lo' x) (height up x) lo hi (F x)); [lra|exact L|]. intros y. rewrite <- SB. symmetry. apply slice_interior; assumption.
  - assert (NR : forall e, In e (edges_of P) -> ~ rightward x e).
    { intros e He Rr. destruct (proj1 (both_ways P C x FR) (ex_intro _ e (conj He Rr))) as (d & Hd & Ld). exact (N d Hd Ld). }
    assert (EQ : lo = hi).
    { destruct L as [L|L]; [|exact L]. exfalso. assert (I : interior P (x, (lo + hi) / 2)) by (apply SB; lra). destruct (interior_crossed P C x _ FR I) as (e & He & Le). exact (N e He Le). }
    rewrite EQ, Rminus_diag_eq by reflexivity. unfold gslices. apply sum_zero. intros e He. apply gside_none; [apply N; exact He|apply NR; exact He].
Qed.
End Slices.

(** ** affine functions *)
Definition prim (al be ga x y : R) : R := (al + be * x) * y + ga * y ^ 2 / 2.
Definition prim_edge (al be ga : R) (e : p2 * p2) : R :=
  let '(x1, y1) := fst e in let '(x2, y2) := snd e in
  (x2 - x1) * (al * (y1 + y2) / 2 + be * (2 * x1 * y1 + x1 * y2 + x2 * y1 + 2 * x2 * y2) / 6 + ga * (y1 ^ 2 + y1 * y2 + y2 ^ 2) / 6).
Lemma prim_int al be ga e : fst (fst e) <> fst (snd e) -> is_RInt (fun t => prim al be ga t (height e t)) (fst (fst e)) (fst (snd e)) (prim_edge al be ga e).
Proof.
  destruct e as [[x1 y1] [x2 y2]]. unfold height, prim_edge. cbn [fst snd]. intros N.
  set (m := (y2 - y1) / (x2 - x1)).
  set (G := fun t => al * (y1 * (t - x1) + m * (t - x1) ^ 2 / 2) + be * (x1 * y1 * (t - x1) + (x1 * m + y1) * (t - x1) ^ 2 / 2 + m * (t - x1) ^ 3 / 3) + ga / 2 * (y1 ^ 2 * (t - x1) + y1 * m * (t - x1) ^ 2 + m ^ 2 * (t - x1) ^ 3 / 3)).
  assert (I : is_RInt (fun t => prim al be ga t (y1 + m * (t - x1))) x1 x2 (G x2 - G x1)).
  { apply (is_RInt_derive (V := R_CompleteNormedModule) G).
    - intros t _. unfold G, prim. auto_derive; [exact I|]. field.
    - intros t _. unfold prim. apply (ex_derive_continuous (V := R_NormedModule)). auto_derive. exact I. }
  match goal with |- is_RInt _ _ _ ?w => replace w with (G x2 - G x1); [exact I|] end.
  unfold G, m. field. lra.
Qed.
Lemma prim_vertical al be ga e : fst (fst e) = fst (snd e) -> prim_edge al be ga e = 0.
Proof. destruct e as [[x1 y1] [x2 y2]]. unfold prim_edge. cbn [fst snd]. intros ->. ring. Qed.
Definition turned (al be ga : R) (v : p2) : R := - (al * fst v * snd v / 2 + be * fst v ^ 2 * snd v / 3 + ga * fst v * snd v ^ 2 / 6).
Lemma prim_turned al be ga e : - prim_edge al be ga e = al * cross2 (fst e) (snd e) / 2 + be * mx (fst e) (snd e) / 6 + ga * my (fst e) (snd e) / 6 + (turned al be ga (snd e) - turned al be ga (fst e)).
Proof. destruct e as [[x1 y1] [x2 y2]]. unfold prim_edge, turned, mx, my, cross2. cbn [fst snd]. field. Qed.
Lemma prim_sum al be ga P : P <> [] -> sum_over (edges_of P) (fun e => - prim_edge al be ga e) = al * path_sum cross2 P / 2 + be * path_sum mx P / 6 + ga * path_sum my P / 6.
Proof.
  intros N. pose proof (edges_closed P (turned al be ga) N) as C. unfold path_sum. rewrite (ProofMax3.sum_ext _ _ _ (fun e _ => prim_turned al be ga e)).
  transitivity (al * sum_over (edges_of P) (fun e => cross2 (fst e) (snd e)) / 2 + be * sum_over (edges_of P) (fun e => mx (fst e) (snd e)) / 6 + ga * sum_over (edges_of P) (fun e => my (fst e) (snd e)) / 6 + sum_over (edges_of P) (fun e => turned al be ga (snd e) - turned al be ga (fst e))).
  - unfold sum_over. generalize (edges_of P). intros l. induction l as [|e l IH]; cbn [map sumR]; [field|]. rewrite IH. field.
  - rewrite C. ring.
Qed.
Lemma affine_slice al be ga u lo hi : is_RInt (fun w => al + be * u + ga * w) lo hi (prim al be ga u hi - prim al be ga u lo).
Proof.
  apply (is_RInt_derive (V := R_CompleteNormedModule) (fun w => prim al be ga u w)).
  - intros t _. unfold prim. auto_derive; [exact I|]. field.
  - intros t _. apply (ex_derive_continuous (V := R_NormedModule)). auto_derive. exact I.
Qed.
Notation slices_of P lo hi := (forall u, (forall v, In v P -> fst v <> u) -> slice_between P u (lo u) (hi u)) (only parsing).
Lemma affine_moments P A B lo hi al be ga : convex P -> (forall v, In v P -> A < fst v < B) -> slices_of P lo hi ->
  is_RInt (fun u => RInt (fun w => al + be * u + ga * w) (lo u) (hi u)) A B (al * path_sum cross2 P / 2 + be * path_sum mx P / 6 + ga * path_sum my P / 6).
Proof.
  intros C Bd S. pose proof (cv_ne P C) as N. assert (AB : A <= B) by (destruct P as [|v l]; [contradiction|]; specialize (Bd v (or_introl eq_refl)); lra).
  rewrite <- (prim_sum al be ga P N).
  apply (rint_points (map fst P) (gslices (prim al be ga) P)); [exact AB| |].
  - intros u Hu NI. assert (F : forall v, In v P -> fst v <> u) by (intros v Hv E; apply NI; rewrite <- E; apply in_map; exact Hv).
    rewrite (gslice_is (prim al be ga) P u (lo u) (hi u) C F (S u F)). symmetry. apply (is_RInt_unique (V := R_CompleteNormedModule)). apply affine_slice.
  - unfold gslices. apply (rint_sum (edges_of P) (gside (prim al be ga)) (fun e => - prim_edge al be ga e)). intros e He. destruct (edge_ends P e N He) as [I1 I2].
    apply gside_int; [apply Bd; exact I1|apply Bd; exact I2|apply prim_int|apply prim_vertical].
Qed.
Lemma poisson_ex x y z u a b : 0 < z -> ex_RInt (poisson (P3 x y z) u) a b.
Proof.
  intros Hz. apply (ex_RInt_continuous (V := R_CompleteNormedModule)). intros w _. apply (ex_derive_continuous (V := R_NormedModule)).
  unfold poisson. cbn [px py pz]. pose proof PI_RGT_0 as PP. assert (P : 0 < (u - x) ^ 2 + (w - y) ^ 2 + z ^ 2). { pose proof (pow2_ge_0 (u - x)). pose proof (pow2_ge_0 (w - y)). pose proof (pow_lt z 2 Hz). lra. }
  pose proof (sqrt_lt_R0 _ P) as SP. auto_derive. split; [exact P|]. split; [|exact Logic.I]. replace (w + - y) with (w - y) by ring.
  set (r := sqrt _) in *.
  apply Rmult_integral_contrapositive_currified; [lra|]. repeat (apply Rmult_integral_contrapositive_currified; [lra|]); lra.
Qed.
(** ** the kernel to second order *)
Section Taylor.
Variables A B D r : R.
Hypothesis (Hr : 0 < r) (HD : 0 <= D) (HC : B ^ 2 <= D * A).
Definition quad (t : R) : R := A + 2 * B * t + D * t ^ 2.
Hypothesis HS : forall t, 0 <= t <= 1 -> r ^ 2 <= quad t.
Definition kq (t : R) : R := / sqrt (quad t) ^ 3.
Definition kq1 (t : R) : R := - 3 * (B + D * t) / sqrt (quad t) ^ 5.
Definition kq2 (t : R) : R := 15 * (B + D * t) ^ 2 / sqrt (quad t) ^ 7 - 3 * D / sqrt (quad t) ^ 5.
Lemma quad_pos t : 0 <= t <= 1 -> 0 < quad t.
Proof. intros H. pose proof (HS t H). pose proof (pow_lt r 2 Hr). lra. Qed.
Lemma quad_sqrt t : 0 <= t <= 1 -> 0 < sqrt (quad t) /\ sqrt (quad t) ^ 2 = quad t /\ r <= sqrt (quad t).
Proof.
  intros H. pose proof (quad_pos t H) as P. split; [apply sqrt_lt_R0; exact P|]. split; [apply pow2_sqrt; lra|].
  rewrite <- (sqrt_pow2 r) by lra. apply sqrt_le_1; [apply pow2_ge_0|lra|apply HS; exact H].
Qed.
Lemma kq_d t : 0 <= t <= 1 -> is_derive kq t (kq1 t).
Proof.
  intros H. pose proof (quad_pos t H) as P. destruct (quad_sqrt t H) as (S & S2 & _). unfold kq, kq1, quad in *. auto_derive.
  - split; [lra|]. split; [|exact Logic.I]. set (q := sqrt _) in *. repeat (apply Rmult_integral_contrapositive_currified; [lra|]); lra.
  - replace (t * (t * 1)) with (t ^ 2) in * by ring. set (q := sqrt _) in *. field. lra.
Qed.
Lemma kq1_d t : 0 <= t <= 1 -> is_derive kq1 t (kq2 t).
Proof.
  intros H. pose proof (quad_pos t H) as P. destruct (quad_sqrt t H) as (S & S2 & _). unfold kq1, kq2, quad in *. auto_derive.
  - split; [lra|]. split; [|exact Logic.I]. set (q := sqrt _) in *. repeat (apply Rmult_integral_contrapositive_currified; [lra|]); lra.
  - replace (t * (t * 1)) with (t ^ 2) in * by ring. set (q := sqrt _) in *. field. lra.
Qed.
Lemma kq2_bound t : 0 <= t <= 1 -> Rabs (kq2 t) <= 12 * D / r ^ 5.
Proof.
  intros H. destruct (quad_sqrt t H) as (S & S2 & L). set (q := sqrt (quad t)) in *. unfold kq2. fold q.
  assert (CS : (B + D * t) ^ 2 <= D * q ^ 2).
  { rewrite S2. unfold quad. assert (E : D * (A + 2 * B * t + D * t ^ 2) - (B + D * t) ^ 2 = D * A - B ^ 2) by ring. lra. }
  pose proof (pow_lt q 5 S) as Q5. pose proof (pow_lt q 7 S) as Q7. pose proof (pow_lt r 5 Hr) as R5.
  assert (L5 : r ^ 5 <= q ^ 5) by (apply pow_incr; lra).
  assert (T : 12 * D / q ^ 5 <= 12 * D / r ^ 5). { unfold Rdiv. apply Rmult_le_compat_l; [lra|]. apply Rinv_le_contravar; assumption. }
  assert (U0 : 0 <= 15 * (B + D * t) ^ 2 / q ^ 7). { unfold Rdiv. apply Rmult_le_pos; [pose proof (pow2_ge_0 (B + D * t)); lra|left; apply Rinv_0_lt_compat; exact Q7]. }
  assert (U1 : 15 * (B + D * t) ^ 2 / q ^ 7 <= 15 * D / q ^ 5).
  { replace (15 * D / q ^ 5) with (15 * (D * q ^ 2) / q ^ 7) by (field; lra). unfold Rdiv. apply Rmult_le_compat_r; [left; apply Rinv_0_lt_compat; exact Q7|lra]. }
  assert (V : 0 <= D / q ^ 5) by (unfold Rdiv; apply Rmult_le_pos; [lra|left; apply Rinv_0_lt_compat; exact Q5]).
  replace (15 * D / q ^ 5) with (15 * (D / q ^ 5)) in U1 by (unfold Rdiv; ring). replace (12 * D / q ^ 5) with (12 * (D / q ^ 5)) in T by (unfold Rdiv; ring). replace (3 * D / q ^ 5) with (3 * (D / q ^ 5)) by (unfold Rdiv; ring).
  apply Rabs_le. lra.
Qed.
Lemma mvt01 (f f' : R -> R) b : 0 < b <= 1 -> (forall t, 0 <= t <= 1 -> is_derive f t (f' t)) -> exists c, 0 < c < b /\ f b - f 0 = f' c * b.
Proof.
  intros Hb H. destruct (MVT_cor2 f f' 0 b ltac:(lra)) as (c & E & Hc).
  - intros c Hc. apply is_derive_Reals. apply H. lra.
  - exists c. split; [exact Hc|]. rewrite E. ring.
Qed.
Lemma taylor : Rabs (kq 1 - kq 0 - kq1 0) <= 6 * D / r ^ 5.
Proof.
  set (M := 12 * D / r ^ 5). replace (6 * D / r ^ 5) with (M / 2) by (unfold M; field; lra).
  assert (G : forall s, s = 1 \/ s = -1 -> s * (kq 1 - kq 0 - kq1 0) <= M / 2).
  { intros s Hs.
    destruct (mvt01 (fun t => s * (kq t - kq1 0 * t) - M / 2 * t ^ 2) (fun t => s * (kq1 t - kq1 0) - M * t) 1 ltac:(lra)) as (c & Hc & E).
    - intros t Ht. pose proof (kq_d t Ht) as Dk. auto_derive; [exists (kq1 t); exact Dk|]. replace (Derive (fun x : R => kq x) t) with (kq1 t) by (symmetry; apply is_derive_unique; exact Dk). field.
    - destruct (mvt01 (fun t => s * (kq1 t - kq1 0) - M * t) (fun t => s * kq2 t - M) c ltac:(lra)) as (d & Hd & E').
      + intros t Ht. pose proof (kq1_d t Ht) as Dk. auto_derive; [exists (kq2 t); exact Dk|]. replace (Derive (fun x : R => kq1 x) t) with (kq2 t) by (symmetry; apply is_derive_unique; exact Dk). field.
      + pose proof (kq2_bound d ltac:(lra)) as K. fold M in K. apply Rabs_le_between in K. assert (N : (s * kq2 d - M) * c <= 0).
        { rewrite <- (Rmult_0_l c). apply Rmult_le_compat_r; [lra|]. destruct Hs as [->| ->]; lra. }
        cbn beta in E, E'. lra. }
  pose proof (G 1 (or_introl eq_refl)). pose proof (G (-1) (or_intror eq_refl)). apply Rabs_le. lra.
Qed.
End Taylor.
(** ** area and centroid *)
Lemma area_pos P : convex P -> 0 < fst (area_centroid P).
Proof.
  intros C. destruct (slices_exist P C) as (lo & hi & S). pose proof (cv_ne P C) as N. pose proof PI_RGT_0 as PP.
  assert (BD : exists A B, forall v, In v P -> A < fst v < B).
  { clear. induction P as [|v l (A & B & H)]; [exists 0, 0; intros v []|]. exists (Rmin A (fst v - 1)), (Rmax B (fst v + 1)).
    pose proof (Rmin_l A (fst v - 1)). pose proof (Rmin_r A (fst v - 1)). pose proof (Rmax_l B (fst v + 1)). pose proof (Rmax_r B (fst v + 1)).
    intros w [<-|Hw]; [lra|]. specialize (H w Hw). lra. }
  destruct BD as (A & B & BD). assert (AB : A <= B) by (destruct P as [|v l]; [contradiction|]; specialize (BD v (or_introl eq_refl)); lra).
  pose proof (one_between P 0 0 0 1 C ltac:(lra)) as [V _].
  pose proof (poisson_int P 0 0 0 1 A B lo hi C ltac:(lra) BD S) as I. pose proof (affine_moments P A B lo hi (/ (2 * PI)) 0 0 C BD S) as J.
  assert (L : value (EPolygon [P] 0 0) 0 0 (P3 0 0 1) <= / (2 * PI) * path_sum cross2 P / 2 + 0 * path_sum mx P / 6 + 0 * path_sum my P / 6).
  { refine (rint_le_points (map fst P) _ _ A B _ _ AB _ I J). intros u Hu NI. assert (F : forall v, In v P -> fst v <> u) by (intros v Hv E; apply NI; rewrite <- E; apply in_map; exact Hv).
    destruct (S u F) as [LH _]. apply RInt_le; [exact LH|apply poisson_ex; lra|exists (prim (/ (2 * PI)) 0 0 u (hi u) - prim (/ (2 * PI)) 0 0 u (lo u)); apply affine_slice|].
    intros w _. unfold poisson. cbn [px py pz]. set (q := (u - 0) ^ 2 + (w - 0) ^ 2 + 1 ^ 2). assert (Q : 1 <= sqrt q).
    { rewrite <- sqrt_1 at 1. apply sqrt_le_1; [lra| |]; unfold q; pose proof (pow2_ge_0 (u - 0)); pose proof (pow2_ge_0 (w - 0)); lra. }
    assert (Q3 : 1 ^ 3 <= sqrt q ^ 3) by (apply pow_incr; lra). rewrite pow1 in Q3. unfold Rdiv. rewrite Rmult_1_l, !Rmult_0_l, !Rplus_0_r. apply Rinv_le_contravar; [lra|].
    rewrite <- (Rmult_1_r (2 * PI)) at 1. apply Rmult_le_compat_l; lra. }
  rewrite ac_eq. cbn [fst]. assert (G : 0 < / (2 * PI) * (path_sum cross2 P / 2)) by lra.
  assert (IP : 0 < / (2 * PI)) by (apply Rinv_0_lt_compat; lra). apply (Rmult_lt_reg_l (/ (2 * PI))); [exact IP|]. rewrite Rmult_0_r. exact G.
Qed.
Lemma sums_centroid P : convex P -> let '(a, (cx, cy)) := area_centroid P in path_sum cross2 P / 2 = a /\ path_sum mx P / 6 = a * cx /\ path_sum my P / 6 = a * cy.
Proof.
  intros C. pose proof (area_pos P C) as AP. rewrite ac_eq in *. cbn [fst] in AP. split; [reflexivity|]. split; field; lra.
Qed.
Lemma affine_mean P A B lo hi al be ga : convex P -> (forall v, In v P -> A < fst v < B) -> slices_of P lo hi ->
  let '(a, (cx, cy)) := area_centroid P in
  is_RInt (fun u => RInt (fun w => al + be * u + ga * w) (lo u) (hi u)) A B (a * (al + be * cx + ga * cy)).
Proof.
  intros C BD S. pose proof (sums_centroid P C) as E. destruct (area_centroid P) as [a [cx cy]]. destruct E as (E1 & E2 & E3).
  pose proof (affine_moments P A B lo hi al be ga C BD S) as I.
  match goal with |- is_RInt _ _ _ ?w => replace w with (al * path_sum cross2 P / 2 + be * path_sum mx P / 6 + ga * path_sum my P / 6); [exact I|] end.
  replace (al * path_sum cross2 P / 2) with (al * (path_sum cross2 P / 2)) by (unfold Rdiv; ring). replace (be * path_sum mx P / 6) with (be * (path_sum mx P / 6)) by (unfold Rdiv; ring). replace (ga * path_sum my P / 6) with (ga * (path_sum my P / 6)) by (unfold Rdiv; ring).
  rewrite E1, E2, E3. ring.
Qed.
Lemma path_bounds (P : list p2) : exists A B, forall v, In v P -> A < fst v < B.
Proof.
  induction P as [|v l (A & B & H)]; [exists 0, 0; intros v []|]. exists (Rmin A (fst v - 1)), (Rmax B (fst v + 1)).
  pose proof (Rmin_l A (fst v - 1)). pose proof (Rmin_r A (fst v - 1)). pose proof (Rmax_l B (fst v + 1)). pose proof (Rmax_r B (fst v + 1)).
  intros w [<-|Hw]; [lra|]. specialize (H w Hw). lra.
Qed.
Lemma kernel_taylor x y z cx cy u w delta r : 0 < z -> 0 < r -> disc_apart (cx, cy) delta (P3 x y z) r -> (u - cx) ^ 2 + (w - cy) ^ 2 <= delta ^ 2 ->
  let q := sqrt ((cx - x) ^ 2 + (cy - y) ^ 2 + z ^ 2) in
  Rabs (poisson (P3 x y z) u w - (z / (2 * PI * q ^ 3) - 3 * z / (2 * PI * q ^ 5) * ((cx - x) * (u - cx) + (cy - y) * (w - cy)))) <= 3 * z * delta ^ 2 / (PI * r ^ 5).
Proof.
  intros Hz Hr DA HD q. pose proof PI_RGT_0 as PP. set (A := (cx - x) ^ 2 + (cy - y) ^ 2 + z ^ 2) in *. set (B := (cx - x) * (u - cx) + (cy - y) * (w - cy)). set (D := (u - cx) ^ 2 + (w - cy) ^ 2) in *.
  assert (D0 : 0 <= D) by (unfold D; pose proof (pow2_ge_0 (u - cx)); pose proof (pow2_ge_0 (w - cy)); lra).
  assert (T : Rabs (kq A B D 1 - kq A B D 0 - kq1 A B D 0) <= 6 * D / r ^ 5).
  { apply taylor; [exact Hr|exact D0| |].
    - assert (E : D * A - B ^ 2 = ((cx - x) * (w - cy) - (cy - y) * (u - cx)) ^ 2 + D * z ^ 2) by (unfold A, B, D; ring).
      pose proof (pow2_ge_0 ((cx - x) * (w - cy) - (cy - y) * (u - cx))). pose proof (Rmult_le_pos D (z ^ 2) D0 (pow2_ge_0 z)). lra.
    - intros t Ht. pose proof (DA (cx + t * (u - cx)) (cy + t * (w - cy))) as H. cbn [fst snd px py pz] in H.
      replace (quad A B D t) with ((cx + t * (u - cx) - x) ^ 2 + (cy + t * (w - cy) - y) ^ 2 + z ^ 2) by (unfold quad, A, B, D; ring). apply H.
      replace ((cx + t * (u - cx) - cx) ^ 2 + (cy + t * (w - cy) - cy) ^ 2) with (t ^ 2 * D) by (unfold D; ring). apply (Rle_trans _ D); [|exact HD].
      rewrite <- (Rmult_1_l D) at 2. apply Rmult_le_compat_r; [exact D0|]. rewrite <- (pow1 2). apply pow_incr. lra. }
  assert (QA : quad A B D 0 = A) by (unfold quad; ring).
  assert (Q1 : quad A B D 1 = (u - x) ^ 2 + (w - y) ^ 2 + z ^ 2) by (unfold quad, A, B, D; ring).
  unfold kq, kq1 in T. rewrite QA, Q1 in T. fold q in T. rewrite Rmult_0_r, Rplus_0_r in T.
  assert (AP : 0 < A) by (unfold A; pose proof (pow2_ge_0 (cx - x)); pose proof (pow2_ge_0 (cy - y)); pose proof (pow_lt z 2 Hz); lra).
  assert (qP : 0 < q) by (apply sqrt_lt_R0; exact AP).
  assert (UP : 0 < (u - x) ^ 2 + (w - y) ^ 2 + z ^ 2) by (pose proof (pow2_ge_0 (u - x)); pose proof (pow2_ge_0 (w - y)); pose proof (pow_lt z 2 Hz); lra).
  apply sqrt_lt_R0 in UP. unfold poisson. cbn [px py pz]. clearbody q. set (s := sqrt ((u - x) ^ 2 + (w - y) ^ 2 + z ^ 2)) in *. clearbody s.
  replace (z / (2 * PI * s ^ 3) - (z / (2 * PI * q ^ 3) - 3 * z / (2 * PI * q ^ 5) * B)) with (z / (2 * PI) * (/ s ^ 3 - / q ^ 3 - - (3) * B / q ^ 5)) by (field; repeat split; lra).
  assert (KP : 0 < z / (2 * PI)) by (apply Rdiv_lt_0_compat; lra). rewrite Rabs_mult, (Rabs_right (z / (2 * PI))) by lra.
  pose proof (pow_lt r 5 Hr) as R5. apply (Rle_trans _ (z / (2 * PI) * (6 * delta ^ 2 / r ^ 5))); [|right; field; lra]. apply Rmult_le_compat_l; [lra|]. apply (Rle_trans _ _ _ T). unfold Rdiv. apply Rmult_le_compat_r; [left; apply Rinv_0_lt_compat; exact R5|lra].
Qed.
Lemma point_one c a h x y z : 0 < z -> value (EPoint [(c, a)] 0 h) 0 0 (P3 x y z) = a * (z / (2 * PI * sqrt ((fst c - x) ^ 2 + (snd c - y) ^ 2 + z ^ 2) ^ 3)).
Proof.
  intros Hz. rewrite point_value, point_potential_formula. change (images 0) with [0%Z]. unfold sum_over. cbn [map sumR fst snd]. unfold dist, image. cbn [px py pz].
  replace (z + 2 * 0 * h) with z by ring. replace ((x - fst c) ^ 2) with ((fst c - x) ^ 2) by ring. replace ((y - snd c) ^ 2) with ((snd c - y) ^ 2) by ring. unfold Rdiv. ring.
Qed.
(** ** pieces *)
Lemma sum_abs {A} (l : list A) f g : (forall a, In a l -> Rabs (f a) <= g a) -> Rabs (sum_over l f) <= sum_over l g.
Proof.
  unfold sum_over. induction l as [|a l IH]; intros H; cbn [map sumR]; [rewrite Rabs_R0; lra|]. apply (Rle_trans _ _ _ (Rabs_triang _ _)).
  apply Rplus_le_compat; [apply H; left; reflexivity|apply IH; intros b Hb; apply H; right; exact Hb].
Qed.
Lemma sum_minus {A} (l : list A) f g : sum_over l f - sum_over l g = sum_over l (fun a => f a - g a).
Proof. unfold sum_over. induction l as [|a l IH]; cbn [map sumR]; [ring|]. rewrite <- IH. ring. Qed.
Lemma sum_scal' {A} (l : list A) f c : c * sum_over l f = sum_over l (fun a => c * f a).
Proof. unfold sum_over. induction l as [|a l IH]; cbn [map sumR]; [ring|]. rewrite <- IH. ring. Qed.
Definition S0 (P : list p2) : R := path_sum cross2 P / 2.
Definition S1 (P : list p2) : R := path_sum mx P / 6.
Definition S2 (P : list p2) : R := path_sum my P / 6.
Lemma part_error P h x y z cx cy delta r : convex P -> 0 < z -> 0 < r -> inside_disc P (cx, cy) delta -> disc_apart (cx, cy) delta (P3 x y z) r ->
  let q := sqrt ((cx - x) ^ 2 + (cy - y) ^ 2 + z ^ 2) in let k := 3 * z / (2 * PI * q ^ 5) in
  Rabs (value (EPolygon [P] 0 h) 0 0 (P3 x y z) - ((z / (2 * PI * q ^ 3) + k * ((cx - x) * cx + (cy - y) * cy)) * S0 P - k * (cx - x) * S1 P - k * (cy - y) * S2 P)) <= 3 * z * delta ^ 2 / (PI * r ^ 5) * S0 P.
Proof.
  intros C Hz Hr ID DA q k. pose proof (fun A B lo hi al be ga => affine_moments P A B lo hi al be ga C) as MN.
  destruct (slices_exist P C) as (lo & hi & S). destruct (path_bounds P) as (A & B & BD). pose proof (cv_ne P C) as N.
  assert (AB : A <= B) by (destruct P as [|v l]; [contradiction|]; specialize (BD v (or_introl eq_refl)); lra).
  pose proof (poisson_int P h x y z A B lo hi C Hz BD S) as I. set (M := 3 * z * delta ^ 2 / (PI * r ^ 5)).
  assert (T : forall u w, interior P (u, w) -> Rabs (poisson (P3 x y z) u w - (z / (2 * PI * q ^ 3) - k * ((cx - x) * (u - cx) + (cy - y) * (w - cy)))) <= M).
  { intros u w Iw. apply kernel_taylor; [exact Hz|exact Hr|exact DA|]. exact (ID (u, w) Iw). }
  set (al := fun m => z / (2 * PI * q ^ 3) + k * ((cx - x) * cx + (cy - y) * cy) + m).
  pose proof (fun m => MN A B lo hi (al m) (- k * (cx - x)) (- k * (cy - y)) BD S) as J.
  assert (EJ : forall m, al m * path_sum cross2 P / 2 + - k * (cx - x) * path_sum mx P / 6 + - k * (cy - y) * path_sum my P / 6 = (z / (2 * PI * q ^ 3) + k * ((cx - x) * cx + (cy - y) * cy)) * S0 P - k * (cx - x) * S1 P - k * (cy - y) * S2 P + m * S0 P) by (intros m; unfold al, S0, S1, S2, Rdiv; ring).
  assert (EX : forall m u, ex_RInt (fun w => al m + - k * (cx - x) * u + - k * (cy - y) * w) (lo u) (hi u)) by (intros m u; eexists; apply affine_slice).
  set (W := (z / (2 * PI * q ^ 3) + k * ((cx - x) * cx + (cy - y) * cy)) * S0 P - k * (cx - x) * S1 P - k * (cy - y) * S2 P) in *.
  assert (U : value (EPolygon [P] 0 h) 0 0 (P3 x y z) <= W + M * S0 P).
  { rewrite <- EJ. refine (rint_le_points (map fst P) _ _ A B _ _ AB _ I (J M)). intros u Hu NI. assert (F : forall v, In v P -> fst v <> u) by (intros v Hv E; apply NI; rewrite <- E; apply in_map; exact Hv).
    destruct (S u F) as [LH IH]. apply RInt_le; [exact LH|apply poisson_ex; exact Hz|apply EX|]. intros w Hw. apply IH in Hw. specialize (T u w Hw). apply Rabs_le_between in T. unfold al. lra. }
  assert (L : W + - M * S0 P <= value (EPolygon [P] 0 h) 0 0 (P3 x y z)).
  { rewrite <- EJ. refine (rint_le_points (map fst P) _ _ A B _ _ AB _ (J (- M)) I). intros u Hu NI. assert (F : forall v, In v P -> fst v <> u) by (intros v Hv E; apply NI; rewrite <- E; apply in_map; exact Hv).
    destruct (S u F) as [LH IH]. apply RInt_le; [exact LH|apply EX|apply poisson_ex; exact Hz|]. intros w Hw. apply IH in Hw. specialize (T u w Hw). apply Rabs_le_between in T. unfold al. lra. }
  apply Rabs_le. lra.
Qed.
(** ** cutting *)
Lemma sum_perm {A} (l l' : list A) f : Permutation l l' -> sum_over l f = sum_over l' f.
Proof. unfold sum_over. intros H. induction H; cbn [map sumR]; lra. Qed.
Lemma sum_app' {A} (l l' : list A) f : sum_over (l ++ l') f = sum_over l f + sum_over l' f.
Proof. unfold sum_over. induction l as [|a l IH]; cbn [app map sumR]; [ring|rewrite IH; ring]. Qed.
Lemma tiled_sum paths parts (f : p2 -> p2 -> R) : (forall a b, f b a = - f a b) -> tiled paths parts -> sum_over parts (path_sum f) = sum_over paths (path_sum f).
Proof.
  intros A (_ & _ & _ & _ & cuts & PM). apply (sum_perm _ _ (fun e => f (fst e) (snd e))) in PM. rewrite !sum_app' in PM. rewrite !sum_flat in PM.
  assert (E : sum_over (map (fun e : p2 * p2 => (snd e, fst e)) cuts) (fun e => f (fst e) (snd e)) = - sum_over cuts (fun e => f (fst e) (snd e))).
  { unfold sum_over. clear PM. induction cuts as [|[a b] l IH]; cbn [map sumR fst snd]; [ring|]. rewrite IH, A. ring. }
  rewrite E in PM. unfold path_sum. lra.
Qed.
Lemma tiled_parts_ne paths parts : tiled paths parts -> ~ In [] parts.
Proof. intros (_ & _ & C & _) I. exact (cv_ne [] (C [] I) eq_refl). Qed.
Lemma tiled_value paths parts n h d i p : tiled paths parts -> value (EPolygon paths n h) d i p = value (EPolygon parts n h) d i p.
Proof.
  intros T. rewrite !polygon_value by (try exact (tiled_parts_ne _ _ T); exact (proj1 T)). unfold path_value. symmetry.
  assert (SW : forall l : list (list p2), sum_over l (fun path => sum_over (images n) (fun k => path_sum (fun a b => edge_term d a b i (image h k p)) path)) = sum_over (images n) (fun k => sum_over l (path_sum (fun a b => edge_term d a b i (image h k p))))).
  { intros l. unfold sum_over. induction l as [|P l IH]; cbn [map sumR].
    - generalize (images n) as ks. intros ks. induction ks as [|k ks IHk]; cbn [map sumR]; [reflexivity|rewrite <- IHk; ring].
    - rewrite IH. generalize (images n) as ks. intros ks. induction ks as [|k ks IHk]; cbn [map sumR]; [ring|]. rewrite <- IHk. ring. }
  rewrite !SW. apply ProofMax3.sum_ext. intros k _. apply tiled_sum; [|exact T]. intros a b. apply edge_swap.
Qed.
Lemma tiled_sums P parts : tiled [P] parts -> sum_over parts S0 = S0 P /\ sum_over parts S1 = S1 P /\ sum_over parts S2 = S2 P.
Proof.
  intros T.
  assert (G : forall f c, (forall a b, f b a = - f a b) -> sum_over parts (fun Q => path_sum f Q / c) = path_sum f P / c).
  { intros f c A. pose proof (tiled_sum [P] parts f A T) as E. unfold sum_over at 2 in E. cbn [map sumR] in E. replace (path_sum f P) with (sum_over parts (path_sum f)) by lra. unfold Rdiv. rewrite (Rmult_comm _ (/ c)), sum_scal'. apply ProofMax3.sum_ext. intros Q _. ring. }
  split; [apply G; exact cross_swap|]. split; [apply G; exact mx_swap|apply G; exact my_swap].
Qed.
Lemma tiled_area_pos P parts : tiled [P] parts -> 0 < fst (area_centroid P).
Proof.
  intros T. rewrite ac_eq. cbn [fst]. fold (S0 P). rewrite <- (proj1 (tiled_sums P parts T)). destruct T as (_ & N & C & _). apply sum_pos; [exact N|]. intros Q HQ. pose proof (area_pos Q (C Q HQ)) as A. rewrite ac_eq in A. exact A.
Qed.
Lemma polygon_split paths h p : ~ In [] paths -> value (EPolygon paths 0 h) 0 0 p = sum_over paths (fun P => value (EPolygon [P] 0 h) 0 0 p).
Proof.
  intros N. rewrite polygon_value by exact N. apply ProofMax3.sum_ext. intros P HP. rewrite polygon_value by (intros [E|[]]; apply N; rewrite E in HP; exact HP). unfold sum_over. cbn [map sumR]. ring.
Qed.
Lemma point_error P parts h x y z delta r : tiled [P] parts -> 0 < z -> 0 < r ->
  let '(a, c) := area_centroid P in (forall Q, In Q parts -> inside_disc Q c delta) -> disc_apart c delta (P3 x y z) r ->
  Rabs (value (EPolygon [P] 0 h) 0 0 (P3 x y z) - value (EPoint [(c, a)] 0 h) 0 0 (P3 x y z)) <= a * (3 * z * delta ^ 2 / (PI * r ^ 5)).
Proof.
  intros T Hz Hr. pose proof (tiled_area_pos P parts T) as AP. pose proof (tiled_sums P parts T) as (E0 & E1 & E2).
  assert (AC : let '(a, (cx, cy)) := area_centroid P in S0 P = a /\ S1 P = a * cx /\ S2 P = a * cy).
  { rewrite ac_eq in *. cbn [fst] in AP. unfold S0, S1, S2. split; [reflexivity|]. split; field; lra. }
  destruct (area_centroid P) as [a [cx cy]]. destruct AC as (A0 & A1 & A2). intros ID DA. rewrite point_one by exact Hz. cbn [fst snd].
  rewrite (tiled_value [P] parts) by exact T. rewrite polygon_split by exact (tiled_parts_ne _ _ T).
  set (q := sqrt ((cx - x) ^ 2 + (cy - y) ^ 2 + z ^ 2)). set (k := 3 * z / (2 * PI * q ^ 5)). set (M := 3 * z * delta ^ 2 / (PI * r ^ 5)).
  assert (EV : a * (z / (2 * PI * q ^ 3)) = sum_over parts (fun Q => (z / (2 * PI * q ^ 3) + k * ((cx - x) * cx + (cy - y) * cy)) * S0 Q - k * (cx - x) * S1 Q - k * (cy - y) * S2 Q)).
  { rewrite <- !sum_minus, <- !sum_scal', E0, E1, E2, A0, A1, A2. ring. }
  rewrite EV, sum_minus. rewrite <- A0, <- E0, (Rmult_comm (sum_over parts S0) M), sum_scal'. apply sum_abs. intros Q HQ. destruct T as (_ & _ & C & _). apply part_error; [exact (C Q HQ)|exact Hz|exact Hr|exact (ID Q HQ)|exact DA].
Qed.
Lemma convex_tiled P : convex P -> tiled [P] [P].
Proof.
  intros C. split; [intros [E|[]]; exact (cv_ne P C E)|]. split; [discriminate|]. split; [intros Q [<-|[]]; exact C|]. split; [constructor; [constructor|constructor]|]. exists []. cbn [app map]. rewrite app_nil_r. reflexivity.
Qed.
(** ** whole electrodes, with images of the cover *)
Lemma image0 h p : image h 0 p = p.
Proof. destruct p as [x y z]. unfold image. cbn [px py pz]. f_equal. ring. Qed.
Lemma polygon_images paths n h p : ~ In [] paths ->
  value (EPolygon paths n h) 0 0 p = sum_over paths (fun P => sum_over (images n) (fun k => value (EPolygon [P] 0 0) 0 0 (image h k p))).
Proof.
  intros N. rewrite polygon_value by exact N. apply ProofMax3.sum_ext. intros P HP. unfold path_value. apply ProofMax3.sum_ext. intros k _.
  rewrite polygon_value by (intros [E|[]]; apply N; rewrite E in HP; exact HP). unfold sum_over. cbn [map sumR]. unfold path_value. change (images 0) with [0%Z]. unfold sum_over. cbn [map sumR]. rewrite image0. ring.
Qed.
Lemma point_images (l : list (p2 * R)) n h p :
  value (EPoint l n h) 0 0 p = sum_over l (fun va => sum_over (images n) (fun k => value (EPoint [va] 0 0) 0 0 (image h k p))).
Proof.
  rewrite point_value, point_potential_formula. apply ProofMax3.sum_ext. intros va _. apply ProofMax3.sum_ext. intros k _.
  rewrite point_value, point_potential_formula. change (images 0) with [0%Z]. unfold sum_over. cbn [map sumR]. rewrite image0. ring.
Qed.
Lemma point_error_z P parts h p delta : tiled [P] parts -> pz p <> 0 ->
  let '(a, c) := area_centroid P in (forall Q, In Q parts -> inside_disc Q c delta) ->
  Rabs (value (EPolygon [P] 0 h) 0 0 p - value (EPoint [(c, a)] 0 h) 0 0 p) <= a * (3 * delta ^ 2 / (PI * pz p ^ 4)).
Proof.
  intros C Hz. pose proof PI_RGT_0 as PP. destruct p as [x y z]. cbn [pz] in *.
  assert (G : forall z, 0 < z -> let '(a, c) := area_centroid P in (forall Q, In Q parts -> inside_disc Q c delta) ->
    Rabs (value (EPolygon [P] 0 h) 0 0 (P3 x y z) - value (EPoint [(c, a)] 0 h) 0 0 (P3 x y z)) <= a * (3 * delta ^ 2 / (PI * z ^ 4))).
  { intros z' Hz'. pose proof (point_error P parts h x y z' delta z' C Hz' Hz') as E. destruct (area_centroid P) as [a c]. intros ID.
    replace (3 * delta ^ 2 / (PI * z' ^ 4)) with (3 * z' * delta ^ 2 / (PI * z' ^ 5)) by (field; lra). apply E; [exact ID|]. intros u w _. cbn [px py pz]. pose proof (pow2_ge_0 (u - x)). pose proof (pow2_ge_0 (w - y)). lra. }
  destruct (Rlt_or_le 0 z) as [L|L]; [exact (G z L)|]. specialize (G (- z) ltac:(lra)). destruct (area_centroid P) as [a c]. intros ID. specialize (G ID).
  change (P3 x y (- z)) with (mirror (P3 x y z)) in G. rewrite !value_mirror in G; try exact Logic.I; [|exact (proj1 C)].
  change (z_order 0 0) with 0%nat in G. change ((-1) ^ 0) with 1 in G. replace ((- z) ^ 4) with (z ^ 4) in G by ring.
  match type of G with Rabs ?e <= _ => match goal with |- Rabs ?f <= _ => replace f with (- e) by ring; rewrite Rabs_Ropp; exact G end end.
Qed.
Lemma outline_error P parts h p delta : outline P parts -> pz p <> 0 ->
  let '(a, c) := area_centroid P in (forall Q, In Q parts -> inside_disc Q c delta) ->
  Rabs (value (EPolygon [P] 0 h) 0 0 p - value (EPoint [(c, a)] 0 h) 0 0 p) <= Rabs a * (3 * delta ^ 2 / (PI * pz p ^ 4)).
Proof.
  intros [T|T] Hz.
  - pose proof (point_error_z P parts h p delta T Hz) as E. pose proof (tiled_area_pos P parts T) as A. destruct (area_centroid P) as [a c]. cbn [fst] in A. rewrite (Rabs_right a) by lra. exact E.
  - pose proof (point_error_z (rev P) parts h p delta T Hz) as E. pose proof (tiled_area_pos (rev P) parts T) as A.
    assert (NZ : signed_area (rev P) <> 0) by (rewrite <- ac_area; lra). pose proof (ac_reverse (rev P) NZ) as RV. rewrite rev_involutive in RV. rewrite RV.
    destruct (area_centroid (rev P)) as [a c]. cbn [fst snd] in *. intros ID. specialize (E ID). rewrite Rabs_Ropp, (Rabs_right a) by lra.
    assert (NP : P <> []) by (intros ->; apply (proj1 T); left; reflexivity).
    assert (VR : value (EPolygon [P] 0 h) 0 0 p = - value (EPolygon [rev P] 0 h) 0 0 p).
    { rewrite !polygon_value by (intros [E'|[]]; try exact (NP E'); apply (proj1 T); left; exact E'). unfold sum_over. cbn [map sumR]. unfold path_value. rewrite !Rplus_0_r. change (images 0) with [0%Z]. unfold sum_over. cbn [map sumR].
      rewrite (path_sum_rev _ (fun a b => edge_swap _ a b _ _)). ring. }
    assert (VP : value (EPoint [(c, - a)] 0 h) 0 0 p = - value (EPoint [(c, a)] 0 h) 0 0 p).
    { rewrite !point_value, !point_potential_formula. change (images 0) with [0%Z]. unfold sum_over. cbn [map sumR fst snd]. unfold Rdiv. ring. }
    rewrite VR, VP. match type of E with Rabs ?e <= _ => match goal with |- Rabs ?f <= _ => replace f with (- e) by ring; rewrite Rabs_Ropp; exact E end end.
Qed.
Lemma to_points_error e e' paths n h p delta : egeom e = EPolygon paths n h -> to_points e = Ok e' -> (forall P, In P paths -> exists parts, outline P parts /\ forall Q, In Q parts -> inside_disc Q (snd (area_centroid P)) delta) ->
  (forall k, In k (images n) -> pz (image h k p) <> 0) ->
  Rabs (value (egeom e) 0 0 p - value (egeom e') 0 0 p) <= sum_over paths (fun P => Rabs (fst (area_centroid P))) * sum_over (images n) (fun k => 3 * delta ^ 2 / (PI * pz (image h k p) ^ 4)).
Proof.
  intros EG ET HP HZ. unfold to_points in ET. rewrite EG in ET. injection ET as <-. cbn [egeom]. rewrite EG.
  assert (N : ~ In [] paths) by (intros I; destruct (HP [] I) as (parts & [T|T] & _); apply (proj1 T); left; reflexivity).
  rewrite polygon_images by exact N. rewrite point_images. rewrite map_map.
  assert (SM : forall f : p2 * R -> R, sum_over (map (fun x : list p2 => (snd (area_centroid x), fst (area_centroid x))) paths) f = sum_over paths (fun x => f (snd (area_centroid x), fst (area_centroid x)))) by (intros f; unfold sum_over; rewrite map_map; reflexivity).
  rewrite SM, sum_minus. rewrite Rmult_comm, sum_scal'. apply sum_abs. intros P IP. destruct (HP P IP) as (parts & T & ID). rewrite sum_minus, Rmult_comm, sum_scal'. apply sum_abs. intros k Hk.
  pose proof (outline_error P parts 0 (image h k p) delta T (HZ k Hk)) as E. destruct (area_centroid P) as [a c]. cbn [fst snd] in *. exact (E ID).
Qed.
Lemma area_int P A B lo hi : convex P -> (forall v, In v P -> A < fst v < B) -> slices_of P lo hi -> is_RInt (fun u => hi u - lo u) A B (fst (area_centroid P)).
Proof.
  intros C BD S. pose proof (affine_mean P A B lo hi 1 0 0 C BD S) as I. destruct (area_centroid P) as [a [cx cy]]. cbn [fst]. replace a with (a * (1 + 0 * cx + 0 * cy)) by ring.
  refine (is_RInt_ext (V := R_NormedModule) _ _ _ _ _ _ I). intros u _. apply (is_RInt_unique (V := R_CompleteNormedModule)). replace (hi u - lo u) with (prim 1 0 0 u (hi u) - prim 1 0 0 u (lo u)); [apply affine_slice|]. unfold prim. match goal with |- ?a = ?b => change (@eq R a b) end. field.
Qed.

Lemma points_converge S n h p eps : 0 < S -> 0 < eps -> (forall k, In k (images n) -> pz (image h k p) <> 0) ->
  exists delta, 0 < delta /\ forall e e' paths, egeom e = EPolygon paths n h -> to_points e = Ok e' ->
  (forall P, In P paths -> exists parts, outline P parts /\ forall Q, In Q parts -> inside_disc Q (snd (area_centroid P)) delta) -> sum_over paths (fun P => Rabs (fst (area_centroid P))) <= S ->
  Rabs (value (egeom e) 0 0 p - value (egeom e') 0 0 p) < eps.
Proof.
  intros HS He HZ. pose proof PI_RGT_0 as PP. set (T := sum_over (images n) (fun k => 3 / (PI * pz (image h k p) ^ 4))).
  assert (T0 : 0 <= T).
  { unfold T, sum_over. clear HZ. generalize (images n) as l. intros l. induction l as [|k l IH]; cbn [map sumR]; [lra|]. assert (0 <= 3 / (PI * pz (image h k p) ^ 4)); [|lra].
    set (w := pz (image h k p)). destruct (Req_EM_T w 0) as [->|NZ]; [unfold Rdiv; replace (PI * 0 ^ 4) with 0 by ring; rewrite Rinv_0; lra|].
    left. apply Rdiv_lt_0_compat; [lra|]. apply Rmult_lt_0_compat; [lra|]. replace (w ^ 4) with ((w ^ 2) ^ 2) by ring. apply pow_lt. rewrite <- Rsqr_pow2. apply Rsqr_pos_lt. exact NZ. }
  assert (Q : 0 < S * T + 1) by (pose proof (Rmult_le_pos S T ltac:(lra) T0); lra).
  exists (sqrt (eps / (S * T + 1))). pose proof (Rdiv_lt_0_compat eps (S * T + 1) He Q) as D. split; [apply sqrt_lt_R0; exact D|]. intros e e' paths EG ET HP HA.
  apply (Rle_lt_trans _ _ _ (to_points_error e e' paths n h p _ EG ET HP HZ)).
  rewrite (ProofMax3.sum_ext _ _ (fun k => eps / (S * T + 1) * (3 / (PI * pz (image h k p) ^ 4)))).
  - rewrite <- sum_scal'. fold T. apply (Rle_lt_trans _ (S * (eps / (S * T + 1) * T))).
    + apply Rmult_le_compat_r; [apply Rmult_le_pos; lra|exact HA].
    + replace (S * (eps / (S * T + 1) * T)) with (eps * ((S * T) / (S * T + 1))) by (field; lra). rewrite <- (Rmult_1_r eps) at 2. apply Rmult_lt_compat_l; [exact He|].
      apply (Rmult_lt_reg_r (S * T + 1)); [exact Q|]. unfold Rdiv. rewrite Rmult_assoc, Rinv_l by lra. lra.
  - intros k _. rewrite pow2_sqrt by lra. unfold Rdiv. ring.
Qed.

(** ** electrodes that are not convex *)
Lemma tiled_between paths parts h x y z : tiled paths parts -> 0 < z -> 0 < value (EPolygon paths 0 h) 0 0 (P3 x y z) < 1.
Proof. intros T Hz. rewrite (tiled_value paths parts) by exact T. destruct T as (_ & N & C & D & _). apply disjoint_between; assumption. Qed.
Lemma tiled_poisson paths parts h x y z A B (lo hi : list p2 -> R -> R) : tiled paths parts -> 0 < z ->
  (forall Q v, In Q parts -> In v Q -> A < fst v < B) -> (forall Q u, In Q parts -> (forall v, In v Q -> fst v <> u) -> slice_between Q u (lo Q u) (hi Q u)) ->
  is_RInt (fun u => sum_over parts (fun Q => RInt (poisson (P3 x y z) u) (lo Q u) (hi Q u))) A B (value (EPolygon paths 0 h) 0 0 (P3 x y z)).
Proof.
  intros T Hz BD S. rewrite (tiled_value paths parts) by exact T. rewrite polygon_split by exact (tiled_parts_ne _ _ T).
  apply (rint_sum parts (fun Q u => RInt (poisson (P3 x y z) u) (lo Q u) (hi Q u)) (fun Q => value (EPolygon [Q] 0 h) 0 0 (P3 x y z))).
  intros Q HQ. destruct T as (_ & _ & C & _). apply poisson_int; [exact (C Q HQ)|exact Hz|intros v Hv; exact (BD Q v HQ Hv)|intros u F; exact (S Q u HQ F)].
Qed.
Lemma tiled_area paths parts A B (lo hi : list p2 -> R -> R) : tiled paths parts ->
  (forall Q v, In Q parts -> In v Q -> A < fst v < B) -> (forall Q u, In Q parts -> (forall v, In v Q -> fst v <> u) -> slice_between Q u (lo Q u) (hi Q u)) ->
  is_RInt (fun u => sum_over parts (fun Q => hi Q u - lo Q u)) A B (sum_over paths (fun P => fst (area_centroid P))).
Proof.
  intros T BD S. rewrite (ProofMax3.sum_ext paths _ (fun P => / 2 * path_sum cross2 P)) by (intros P _; rewrite ac_eq; cbn [fst]; unfold Rdiv; ring).
  rewrite <- sum_scal', <- (tiled_sum paths parts cross2 cross_swap T), sum_scal'.
  apply (rint_sum parts (fun Q u => hi Q u - lo Q u) (fun Q => / 2 * path_sum cross2 Q)). intros Q HQ. destruct T as (_ & _ & C & _).
  pose proof (area_int Q A B (lo Q) (hi Q) (C Q HQ) (fun v => BD Q v HQ) (fun u => S Q u HQ)) as I. rewrite ac_eq in I. cbn [fst] in I. replace (/ 2 * path_sum cross2 Q) with (path_sum cross2 Q / 2) by (unfold Rdiv; ring). exact I.
Qed.
Definition as_parts (parts : electrode -> list (list p2)) (e : electrode) : electrode :=
  match egeom e with EPolygon _ n h => Electrode (ename e) (edc e) (erf e) (EPolygon (parts e) n h) | _ => e end.

Lemma tiled_range s t parts x y z m M : tiled_system s parts -> 0 < z -> m <= 0 <= M -> (forall e v, In e s -> volt t e = Some v -> m <= v <= M) ->
  exists v, electrical_potential s [P3 x y z] 0 t = Ok [[v]] /\ m <= v <= M /\ (0 < M -> v < M) /\ (m < 0 -> m < v).
Proof.
  intros (G & D) Hz mM Hv. set (pat := fun e => match egeom e with EPolygon ps _ _ => ps | _ => [] end).
  assert (PE : forall e, In e s -> pat (as_parts parts e) = parts e). { intros e He. destruct (G e He) as (paths & h & E & _). unfold pat, as_parts. rewrite E. reflexivity. }
  assert (FE : flat_map pat (map (as_parts parts) s) = flat_map parts s).
  { clear G D Hv. induction s as [|e l IH]; [reflexivity|]. cbn [map flat_map]. rewrite PE by (left; reflexivity). rewrite IH by (intros d Hd; apply PE; right; exact Hd). reflexivity. }
  assert (CS : convex_system (map (as_parts parts) s) pat).
  { split; [|split].
    - intros e He. apply in_map_iff in He. destruct He as (d & <- & Hd). destruct (G d Hd) as (paths & h & E & _). exists h. rewrite PE by exact Hd. unfold as_parts. rewrite E. reflexivity.
    - rewrite FE. intros P HP. apply in_flat_map in HP. destruct HP as (e & He & HP). destruct (G e He) as (paths & h & E & (_ & _ & C & _)). exact (C P HP).
    - rewrite FE. exact D. }
  assert (VE : forall e, volt t (as_parts parts e) = volt t e) by (intros e; unfold as_parts; destruct (egeom e); destruct t; reflexivity).
  destruct (system_range (map (as_parts parts) s) t pat x y z m M CS Hz mM) as (v & EV & R).
  - intros e v He Ev. apply in_map_iff in He. destruct He as (d & <- & Hd). rewrite VE in Ev. exact (Hv d v Hd Ev).
  - exists v. split; [|exact R]. rewrite <- EV.
    assert (W : forall e, In e s -> well_formed (egeom e)) by (intros e He; destruct (G e He) as (paths & h & -> & (N & _)); exact N).
    assert (W' : forall e, In e (map (as_parts parts) s) -> well_formed (egeom e)).
    { intros e He. apply in_map_iff in He. destruct He as (d & <- & Hd). destruct (G d Hd) as (paths & h & E & T). unfold as_parts. rewrite E. cbn. exact (tiled_parts_ne _ _ T). }
    rewrite (electrical_one s _ _ _ W), (electrical_one (map (as_parts parts) s) _ _ _ W'). unfold tab. cbn [seq map Nat.mul Nat.add]. f_equal. f_equal. f_equal.
    unfold sys_term, sum_over. rewrite map_map. f_equal. apply map_ext_in. intros e He. destruct (G e He) as (paths & h & E & T).
    assert (VO : volt_of t (as_parts parts e) = volt_of t e) by (unfold as_parts; destruct (egeom e); destruct t; reflexivity). rewrite VO. f_equal.
    unfold as_parts. rewrite E. cbn [egeom]. rewrite <- (value_unit (EPolygon paths 0 h)) by exact (proj1 T). rewrite <- (value_unit (EPolygon (parts e) 0 h)) by exact (tiled_parts_ne _ _ T). apply tiled_value. exact T.
Qed.
