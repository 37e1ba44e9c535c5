(** Proof of C178: at most one potential has given values on the plane, whatever
    happens on the sides of the electrodes. *)
From Coquelicot Require Import Coquelicot.
From Verif Require Import Base ModelExpr ModelUtils ModelField ModelGeom SpecTensor SpecField SpecPoly SpecMax SpecTile SpecEarnshaw SpecCover SpecDirichlet ProofEarnshaw ProofCover3 ProofCover4.
Import ListNotations.
Open Scope R_scope.
Notation length := List.length.

(** ** a potential that is infinite on a line *)
Definition off_line (al be ga : R) (p : p3) : R := al * px p + be * py p + ga.
Definition barrier (h al be ga : R) (p : p3) : R :=
  off_line al be ga p ^ 2 - pz p ^ 2 + 2 * h ^ 2 - ln (off_line al be ga p ^ 2 + pz p ^ 2).
Lemma sq_pos a z : 0 < z -> 0 < a ^ 2 + z ^ 2.
Proof. intros Z. pose proof (pow2_ge_0 a). pose proof (pow_lt z 2 Z). lra. Qed.
Lemma barrier_harmonic h al be ga p : al ^ 2 + be ^ 2 = 1 -> 0 < pz p -> harmonic_at (barrier h al be ga) p.
Proof.
  intros U Z. destruct p as [x y z]. cbn [pz] in Z.
  set (a := off_line al be ga (P3 x y z)). pose proof (sq_pos a z Z) as S0. set (s := a ^ 2 + z ^ 2) in *.
  exists (2 * al ^ 2 - (2 * al ^ 2 * s - 4 * al ^ 2 * a ^ 2) / s ^ 2),
    (2 * be ^ 2 - (2 * be ^ 2 * s - 4 * be ^ 2 * a ^ 2) / s ^ 2), (- 2 - (2 * s - 4 * z ^ 2) / s ^ 2).
  split; [|split; [|split]].
  - exists (fun t => 2 * al * (a + al * t) - 2 * al * (a + al * t) / ((a + al * t) ^ 2 + z ^ 2)). split.
    + apply filter_forall. intros t. apply (is_derive_ext (fun u => (a + al * u) ^ 2 - z ^ 2 + 2 * h ^ 2 - ln ((a + al * u) ^ 2 + z ^ 2))).
      * intros u. unfold barrier, off_line. cbn [move px py pz]. f_equal; [f_equal; f_equal|f_equal; f_equal]; unfold a, off_line; cbn [px py]; ring.
      * pose proof (sq_pos (a + al * t) z Z). auto_derive; [lra|]. field. lra.
    + unfold s in *. auto_derive; [rewrite Rmult_0_r, Rplus_0_r; lra|]. rewrite Rmult_0_r, Rplus_0_r. field. lra.
  - exists (fun t => 2 * be * (a + be * t) - 2 * be * (a + be * t) / ((a + be * t) ^ 2 + z ^ 2)). split.
    + apply filter_forall. intros t. apply (is_derive_ext (fun u => (a + be * u) ^ 2 - z ^ 2 + 2 * h ^ 2 - ln ((a + be * u) ^ 2 + z ^ 2))).
      * intros u. unfold barrier, off_line. cbn [move px py pz]. f_equal; [f_equal; f_equal|f_equal; f_equal]; unfold a, off_line; cbn [px py]; ring.
      * pose proof (sq_pos (a + be * t) z Z). auto_derive; [lra|]. field. lra.
    + unfold s in *. auto_derive; [rewrite Rmult_0_r, Rplus_0_r; lra|]. rewrite Rmult_0_r, Rplus_0_r. field. lra.
  - exists (fun t => - 2 * (z + t) - 2 * (z + t) / (a ^ 2 + (z + t) ^ 2)). split.
    + exists (mkposreal z Z). intros t T. unfold ball in T. cbn in T. unfold AbsRing_ball, minus, plus, opp, abs in T. cbn in T. rewrite Ropp_0, Rplus_0_r in T. apply Rabs_def2 in T.
      apply (is_derive_ext (fun u => a ^ 2 - (z + u) ^ 2 + 2 * h ^ 2 - ln (a ^ 2 + (z + u) ^ 2))).
      * intros u. unfold barrier, off_line. cbn [move px py pz]. reflexivity.
      * pose proof (sq_pos a (z + t) ltac:(lra)). auto_derive; [lra|]. field. lra.
    + unfold s in *. auto_derive; [rewrite Rplus_0_r; lra|]. rewrite Rplus_0_r. field. lra.
  - replace (2 * be ^ 2) with (2 - 2 * al ^ 2) by lra. replace (4 * be ^ 2) with (4 - 4 * al ^ 2) by lra. 
    replace (z ^ 2) with (s - a ^ 2) by (unfold s; ring). field. lra.
Qed.
Lemma barrier_pos h al be ga p : 0 < pz p < h -> 0 <= barrier h al be ga p.
Proof.
  intros P. unfold barrier. set (a := off_line al be ga p). pose proof (sq_pos a (pz p) ltac:(lra)) as S.
  pose proof (exp_ineq1_le (ln (a ^ 2 + pz p ^ 2))) as E. rewrite exp_ln in E by exact S.
  assert (pz p ^ 2 <= h ^ 2) by (apply pow_incr; lra). lra.
Qed.
Lemma unit_le al be : al ^ 2 + be ^ 2 = 1 -> Rabs al <= 1.
Proof. intros U. pose proof (pow2_ge_0 be). apply Rabs_le. split; nra. Qed.
Lemma off_close al be ga p q d : al ^ 2 + be ^ 2 = 1 -> Rabs (px q - px p) < d -> Rabs (py q - py p) < d ->
  Rabs (off_line al be ga q - off_line al be ga p) <= 2 * d.
Proof.
  intros U X Y. unfold off_line. replace (al * px q + be * py q + ga - (al * px p + be * py p + ga)) with (al * (px q - px p) + be * (py q - py p)) by ring.
  eapply Rle_trans; [apply Rabs_triang|]. rewrite !Rabs_mult. pose proof (unit_le al be U). pose proof (unit_le be al ltac:(lra)).
  pose proof (Rabs_pos al). pose proof (Rabs_pos be). pose proof (Rabs_pos (px q - px p)). pose proof (Rabs_pos (py q - py p)).
  assert (Rabs al * Rabs (px q - px p) <= 1 * d) by (apply Rmult_le_compat; lra).
  assert (Rabs be * Rabs (py q - py p) <= 1 * d) by (apply Rmult_le_compat; lra). lra.
Qed.
Lemma barrier_infinite h al be ga p M : al ^ 2 + be ^ 2 = 1 -> pz p = 0 -> off_line al be ga p = 0 ->
  exists d, 0 < d /\ forall q, 0 < pz q < h -> close d q p -> M <= barrier h al be ga q.
Proof.
  intros U Z O. pose proof (exp_pos (- M)) as E0. exists (Rmin 1 (exp (- M) / 5)). pose proof (Rmin_l 1 (exp (- M) / 5)). pose proof (Rmin_r 1 (exp (- M) / 5)).
  assert (D0 : 0 < Rmin 1 (exp (- M) / 5)) by (apply Rmin_glb_lt; lra). set (d := Rmin 1 (exp (- M) / 5)) in *.
  split; [exact D0|]. intros q Q (c1 & c2 & c3). pose proof (off_close al be ga p q d U c1 c2) as A. rewrite O, Rminus_0_r in A. rewrite Z, Rminus_0_r in c3. apply Rabs_def2 in c3.
  unfold barrier. set (a := off_line al be ga q) in *. pose proof (sq_pos a (pz q) ltac:(lra)) as S.
  assert (a2 : a ^ 2 <= (2 * d) ^ 2) by (rewrite <- (pow2_abs a); apply pow_incr; split; [apply Rabs_pos|exact A]).
  assert (z2 : pz q ^ 2 <= d ^ 2) by (apply pow_incr; lra).
  assert (zh : pz q ^ 2 <= h ^ 2) by (apply pow_incr; lra). pose proof (pow2_ge_0 h). pose proof (pow2_ge_0 a).
  assert (d2 : d ^ 2 <= d) by (replace (d ^ 2) with (d * d) by ring; rewrite <- (Rmult_1_r d) at 3; apply Rmult_le_compat_l; lra).
  assert (L : ln (a ^ 2 + pz q ^ 2) <= - M).
  { rewrite <- (ln_exp (- M)). destruct (Rle_lt_or_eq_dec (a ^ 2 + pz q ^ 2) (exp (- M))) as [HH|HH]; [lra| |rewrite HH; lra]. left. apply ln_increasing; [exact S|exact HH]. }
  lra.
Qed.
(** continuity *)
Lemma cont_lin f g c p : cont f p -> cont g p -> cont (fun q => f q + c * g q) p.
Proof.
  intros F G. apply cont_plus; [exact F|]. intros eps E. pose proof (Rabs_pos c) as C0. destruct (G (eps / (Rabs c + 1)) ltac:(apply Rdiv_lt_0_compat; lra)) as (d & D0 & D).
  exists d. split; [exact D0|]. intros q Q. specialize (D q Q). replace (c * g q - c * g p) with (c * (g q - g p)) by ring. rewrite Rabs_mult.
  set (e := eps / (Rabs c + 1)) in *. assert (EE : (Rabs c + 1) * e = eps) by (unfold e; field; lra). assert (e0 : 0 < e) by (unfold e; apply Rdiv_lt_0_compat; lra).
  assert (Rabs c * Rabs (g q - g p) <= Rabs c * e) by (apply Rmult_le_compat_l; lra). lra.
Qed.
Lemma cont_comp f phi p : cont f p -> continuous phi (f p) -> cont (fun q => phi (f q)) p.
Proof.
  intros F C eps E. destruct (proj1 (filterlim_locally phi (phi (f p))) C (mkposreal eps E)) as (d & D).
  destruct (F d (cond_pos d)) as (e & E0 & H). exists e. split; [exact E0|]. intros q Q. apply (D (f q)). apply H, Q.
Qed.
Lemma cont_px p : cont px p. Proof. intros eps E. exists eps. split; [exact E|]. intros q (c & _). exact c. Qed.
Lemma cont_py p : cont py p. Proof. intros eps E. exists eps. split; [exact E|]. intros q (_ & c & _). exact c. Qed.
Lemma cont_pz p : cont pz p. Proof. intros eps E. exists eps. split; [exact E|]. intros q (_ & _ & c). exact c. Qed.
Lemma cont_const c p : cont (fun _ => c) p.
Proof. intros eps E. exists 1. split; [lra|]. intros q _. rewrite Rminus_eq_0, Rabs_R0. exact E. Qed.
Lemma cont_off al be ga p : cont (off_line al be ga) p.
Proof.
  apply (cont_ext (fun q => (ga + al * px q) + be * py q)); [intros q; unfold off_line; ring|].
  apply cont_lin; [apply cont_lin; [apply cont_const|apply cont_px]|apply cont_py].
Qed.
Lemma cont_sq f p : cont f p -> cont (fun q => f q ^ 2) p.
Proof. intros F. apply (cont_comp f (fun x => x ^ 2)); [exact F|]. apply (ex_derive_continuous (fun x => x ^ 2)). auto_derive. exact Logic.I. Qed.
Lemma barrier_cont h al be ga p : 0 < pz p -> cont (barrier h al be ga) p.
Proof.
  intros Z. assert (SQ : cont (fun q => off_line al be ga q ^ 2 + pz q ^ 2) p) by (apply cont_plus; apply cont_sq; [apply cont_off|apply cont_pz]).
  apply (cont_ext (fun q => ((off_line al be ga q ^ 2 + -1 * pz q ^ 2) + 2 * h ^ 2) + -1 * ln (off_line al be ga q ^ 2 + pz q ^ 2))); [intros q; unfold barrier; ring|].
  apply cont_lin.
  - apply cont_plus; [|apply cont_const]. apply cont_lin; apply cont_sq; [apply cont_off|apply cont_pz].
  - apply (cont_comp _ ln p SQ). apply continuity_pt_filterlim. apply derivable_continuous_pt. exists (/ (off_line al be ga p ^ 2 + pz p ^ 2)).
    apply derivable_pt_lim_ln. apply sq_pos, Z.
Qed.
Lemma cont_tends h f p : cont f p -> tends h f p (f p).
Proof. intros F eps E. destruct (F eps E) as (d & D0 & D). exists d. split; [exact D0|]. intros q _ c1 c2 c3. apply D. exact (conj c1 (conj c2 c3)). Qed.

(** ** several lines *)
Definition unit_line (l : R * R * R) : Prop := fst (fst l) ^ 2 + snd (fst l) ^ 2 = 1.
Definition line (l : R * R * R) : p3 -> R := off_line (fst (fst l)) (snd (fst l)) (snd l).
Definition bar (h : R) (l : R * R * R) : p3 -> R := barrier h (fst (fst l)) (snd (fst l)) (snd l).
Definition bars (h : R) (ls : list (R * R * R)) (p : p3) : R := sum_over ls (fun l => bar h l p).
Lemma bars_cons h l ls p : bars h (l :: ls) p = bar h l p + bars h ls p.
Proof. reflexivity. Qed.
Lemma bars_pos h ls p : 0 < pz p < h -> 0 <= bars h ls p.
Proof. intros P. induction ls as [|l ls IH]; [unfold bars, sum_over; cbn; lra|]. rewrite bars_cons. pose proof (barrier_pos h (fst (fst l)) (snd (fst l)) (snd l) p P). unfold bar. lra. Qed.
Lemma bars_in h l ls p : 0 < pz p < h -> In l ls -> bar h l p <= bars h ls p.
Proof.
  intros P. induction ls as [|m ls IH]; [intros []|]. rewrite bars_cons. intros [->|I].
  - pose proof (bars_pos h ls p P). lra.
  - specialize (IH I). pose proof (barrier_pos h (fst (fst m)) (snd (fst m)) (snd m) p P). unfold bar at 2. lra.
Qed.
Lemma bars_harmonic h ls p : (forall l, In l ls -> unit_line l) -> 0 < pz p -> harmonic_at (bars h ls) p.
Proof.
  intros U P. induction ls as [|l ls IH].
  - apply (harmonic_ext (quad 0 0 0 0)); [intros q; unfold quad, bars, sum_over; cbn; ring|apply quad_harmonic].
  - apply (harmonic_ext (fun q => bar h l q + 1 * bars h ls q)); [intros q; rewrite bars_cons; ring|].
    apply harmonic_lin; [apply barrier_harmonic; [apply U; left; reflexivity|exact P]|apply IH; intros m I; apply U; right; exact I].
Qed.
Lemma bars_cont h ls p : 0 < pz p -> cont (bars h ls) p.
Proof.
  intros P. induction ls as [|l ls IH]; [apply (cont_ext (fun _ => 0)); [reflexivity|apply cont_const]|].
  apply (cont_ext (fun q => bar h l q + bars h ls q)); [intros q; rewrite bars_cons; reflexivity|]. apply cont_plus; [apply barrier_cont, P|exact IH].
Qed.

(** ** between two planes *)
Lemma slab_lines w h B ls : 0 < h -> (forall l, In l ls -> unit_line l) ->
  (forall p, 0 < pz p < h -> harmonic_at w p /\ tends h w p (w p)) ->
  (forall p, pz p = 0 -> (forall l, In l ls -> line l p <> 0) -> sinks h w p) -> (forall p, pz p = h -> sinks h w p) ->
  (forall p, 0 < pz p < h -> w p <= B) -> forall p, 0 < pz p < h -> w p <= 0.
Proof.
  intros Hh U IN B0 B1 UB.
  assert (KEY : forall e, 0 < e -> forall p, 0 < pz p < h -> w p + - e * bars h ls p <= 0).
  { intros e E. apply (slab_upper (fun p => w p + - e * bars h ls p) h B Hh).
    - intros p P. destruct (IN p P) as [A T]. split; [apply harmonic_lin; [exact A|apply bars_harmonic; [exact U|lra]]|].
      apply tends_lin; [exact T|]. apply cont_tends, bars_cont. lra.
    - assert (LE : forall q, 0 < pz q < h -> w q + - e * bars h ls q <= w q).
      { intros q Q. pose proof (Rmult_le_pos e _ (Rlt_le _ _ E) (bars_pos h ls q Q)). lra. }
      assert (SI : forall p, sinks h w p -> sinks h (fun p => w p + - e * bars h ls p) p).
      { intros p S eps Ep. destruct (S eps Ep) as (d & D0 & D). exists d. split; [exact D0|]. intros q Q c. specialize (D q Q c). specialize (LE q Q). lra. }
      intros p [P|P]; [|apply SI, B1, P].
      destruct (Forall_dec (fun l => line l p <> 0) (fun l => match Req_EM_T (line l p) 0 with left e => right (fun n => n e) | right n => left n end) ls) as [A|A].
      + apply SI, B0; [exact P|]. intros l I. exact (proj1 (Forall_forall _ _) A l I).
      + apply neg_Forall_Exists_neg in A; [|intros l; destruct (Req_EM_T (line l p) 0) as [Z|Z]; [right; intros n; exact (n Z)|left; exact Z]].
        apply Exists_exists in A. destruct A as (l & I & Z). assert (Z' : line l p = 0) by (destruct (Req_EM_T (line l p) 0); [assumption|contradiction]).
        destruct (barrier_infinite h (fst (fst l)) (snd (fst l)) (snd l) p (Rabs B / e) (U l I) P Z') as (d & D0 & D).
        intros eps Ep. exists d. split; [exact D0|]. intros q Q c. specialize (D q Q c). pose proof (bars_in h l ls q Q I) as L. unfold bar in L.
        assert (X : e * (Rabs B / e) <= e * bars h ls q) by (apply Rmult_le_compat_l; lra). replace (e * (Rabs B / e)) with (Rabs B) in X by (field; lra).
        specialize (UB q Q). pose proof (Rle_abs B). lra.
    - intros q Q. specialize (UB q Q). pose proof (Rmult_le_pos e _ (Rlt_le _ _ E) (bars_pos h ls q Q)). lra. }
  intros p P. destruct (Rle_or_lt (w p) 0) as [|L]; [assumption|]. exfalso. pose proof (bars_pos h ls p P) as G.
  set (g := bars h ls p) in *. specialize (KEY (w p / (2 * (g + 1))) ltac:(apply Rdiv_lt_0_compat; lra) p P). fold g in KEY.
  assert (w p / (2 * (g + 1)) * g <= w p / 2).
  { replace (w p / 2) with (w p / (2 * (g + 1)) * (g + 1)) by (field; lra). apply Rmult_le_compat_l; [|lra]. left. apply Rdiv_lt_0_compat; lra. }
  lra.
Qed.
(** ** above the plane *)
Lemma approaches_tends h f p l : approaches f p l -> tends h f p l.
Proof. intros A eps E. destruct (A eps E) as (d & D0 & D). exists d. split; [exact D0|]. intros q Q. apply D. lra. Qed.
Lemma above_lines w B ls : (forall l, In l ls -> unit_line l) ->
  (forall p, 0 < pz p -> harmonic_at w p /\ approaches w p (w p)) ->
  (forall p, pz p = 0 -> (forall l, In l ls -> line l p <> 0) -> approaches w p 0) ->
  (forall p, 0 < pz p -> w p <= B) -> forall p, 0 < pz p -> w p <= 0.
Proof.
  intros U IN B0 UB. assert (B' : exists C, 0 <= C /\ forall p, 0 < pz p -> w p <= C).
  { exists (Rmax 0 B). split; [apply Rmax_l|]. intros p P. eapply Rle_trans; [apply UB, P|apply Rmax_r]. }
  clear B UB. destruct B' as (B & Bp & UB).
  assert (KEY : forall h p, 0 < pz p < h -> w p <= B / h * pz p).
  { intros h p P. assert (Hh : 0 < h) by lra. assert (K0 : 0 <= B / h) by (unfold Rdiv; apply Rmult_le_pos; [exact Bp|left; apply Rinv_0_lt_compat, Hh]).
    enough ((fun q => w q + - (B / h) * pz q) p <= 0) by (cbn beta in *; lra).
    apply (slab_lines (fun q => w q + - (B / h) * pz q) h B ls Hh U); [| | | |exact P].
    - intros q Q. destruct (IN q (proj1 Q)) as [A T]. split.
      + apply harmonic_lin; [exact A|]. apply (harmonic_ext (quad 0 0 1 0)); [intros r; unfold quad; ring|apply quad_harmonic].
      + apply tends_lin; [apply approaches_tends, T|apply cont_tends, cont_pz].
    - intros q Q L eps E. destruct (B0 q Q L eps E) as (d & D0 & D). exists d. split; [exact D0|]. intros r R (c1 & c2 & c3). specialize (D r (proj1 R) c1 c2 c3).
      apply Rabs_def2 in D. pose proof (Rmult_le_pos _ _ K0 (Rlt_le _ _ (proj1 R))). lra.
    - intros q Q eps E. destruct (IN q ltac:(lra)) as [_ T]. pose proof (UB q ltac:(lra)) as u.
      assert (T2 : tends h (fun q => w q + - (B / h) * pz q) q (w q + - (B / h) * pz q)) by (apply tends_lin; [apply approaches_tends, T|apply cont_tends, cont_pz]).
      destruct (T2 eps E) as (d & D0 & D). exists d. split; [exact D0|]. intros r R (c1 & c2 & c3). specialize (D r R c1 c2 c3). apply Rabs_def2 in D.
      rewrite Q in D. replace (B / h * h) with B in D by (field; lra). replace (- (B / h) * h) with (- B) in D by (field; lra). lra.
    - intros q Q. specialize (UB q (proj1 Q)). pose proof (Rmult_le_pos _ _ K0 (Rlt_le _ _ (proj1 Q))). lra. }
  intros p P. destruct (Rle_or_lt (w p) 0) as [|L]; [assumption|]. exfalso.
  set (h := pz p + 2 * B * pz p / w p + 1). assert (F : 0 <= 2 * B * pz p / w p) by (unfold Rdiv; apply Rmult_le_pos; [apply Rmult_le_pos; lra|left; apply Rinv_0_lt_compat, L]).
  specialize (KEY h p ltac:(unfold h; lra)). assert (Hh : 0 < h) by (unfold h; lra).
  assert (w p * h <= B * pz p) by (apply (Rmult_le_compat_r h) in KEY; [|lra]; replace (B / h * pz p * h) with (B * pz p) in KEY by (field; lra); exact KEY).
  assert (w p * (2 * B * pz p / w p) <= w p * h) by (apply Rmult_le_compat_l; unfold h; lra).
  replace (w p * (2 * B * pz p / w p)) with (2 * B * pz p) in * by (field; lra).
  assert (0 < w p * h) by (apply Rmult_lt_0_compat; assumption). lra.
Qed.
