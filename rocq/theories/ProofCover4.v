(** Proof of C177, continued: the limit is the potential below a grounded cover. *)
From Coquelicot Require Import Coquelicot.
From Verif Require Import Base ModelExpr ModelUtils ModelField ModelGeom SpecTensor SpecField SpecPoly SpecMax SpecCentre SpecTile SpecEarnshaw SpecCover ProofField ProofDeriv ProofSys ProofPoly ProofPoly2 ProofPoly3 ProofMax3 ProofMax4 ProofMax5 ProofMax6 ProofCentre ProofEarnshaw ProofCover ProofCover2 ProofCover3.
Import ListNotations.
Open Scope R_scope.
Notation length := List.length.

(** ** a maximum principle on boxes *)
Definition in_box (r h : R) (q : p3) : Prop := - r <= px q <= r /\ - r <= py q <= r /\ 0 <= pz q <= h.
Definition close (d : R) (q p : p3) : Prop := Rabs (px q - px p) < d /\ Rabs (py q - py p) < d /\ Rabs (pz q - pz p) < d.
Lemma box_max (v : p3 -> R) r h C K :
  (forall p eps, in_box r h p -> 0 < eps -> exists d, 0 < d /\ forall q, in_box r h q -> close d q p -> v q <= v p + eps) ->
  (forall p, in_box r h p -> v p <= K) ->
  (forall p, in_box r h p -> v p <= C \/ exists q, in_box r h q /\ v p < v q) ->
  forall p, in_box r h p -> v p <= C.
Proof.
  intros US UB MX p0 P0.
  destruct (completeness (fun t => exists p, in_box r h p /\ t = v p)) as (M & M1 & M2).
  { exists K. intros t (p & P & ->). apply UB, P. }
  { exists (v p0), p0. split; [exact P0|reflexivity]. }
  assert (UM : forall p, in_box r h p -> v p <= M) by (intros p P; apply M1; exists p; auto).
  destruct (Rle_or_lt M C) as [MC|MC]; [specialize (UM p0 P0); lra|]. exfalso.
  assert (ST : forall p, in_box r h p -> v p < M).
  { intros p P. destruct (MX p P) as [L|(q & Q & L)]; [lra|]. specialize (UM q Q). lra. }
  set (E := fun p d => 0 < d <= 1 /\ forall q, in_box r h q -> close d q p -> v q <= M - d).
  assert (EX : forall p, in_box r h p -> exists d, E p d).
  { intros p P. specialize (ST p P). destruct (US p ((M - v p) / 2) P ltac:(lra)) as (d & D0 & D).
    exists (Rmin 1 (Rmin d ((M - v p) / 2))).
    pose proof (Rmin_l 1 (Rmin d ((M - v p) / 2))). pose proof (Rmin_r 1 (Rmin d ((M - v p) / 2))). pose proof (Rmin_l d ((M - v p) / 2)). pose proof (Rmin_r d ((M - v p) / 2)).
    set (m := Rmin 1 _) in *. assert (0 < m) by (unfold m; repeat apply Rmin_glb_lt; lra).
    split; [lra|]. intros q Q (c1 & c2 & c3). assert (v q <= v p + (M - v p) / 2) by (apply D; [exact Q|]; unfold close; lra). lra. }
  set (sup := fun p => real (Lub_Rbar (fun d => d = 0 \/ E p d))).
  assert (SU : forall p, is_lub (fun d => d = 0 \/ E p d) (sup p)).
  { intros p. unfold sup. pose proof (Lub_Rbar_correct (fun d => d = 0 \/ E p d)) as [L1 L2]. set (l := Lub_Rbar _) in *.
    assert (l0 : Rbar_le 0 l) by (apply L1; left; reflexivity).
    assert (l1 : Rbar_le l 1) by (apply L2; intros x [->|[X _]]; cbn; lra).
    destruct l as [l| |]; cbn in l0, l1; try contradiction. split.
    - intros x X. apply (L1 x X).
    - intros b B. apply (L2 b). intros x X. apply (B x X). }
  set (del := fun t : Compactness.Tn 3 R => let '(x, (y, (z, _))) := t in
     let s := sup (P3 x y z) / 2 in if Rlt_dec 0 s then s else 1).
  assert (DP : forall t, 0 < del t) by (intros (x & y & z & []); unfold del; destruct (Rlt_dec 0 _); lra).
  destruct (compactness_value 3 (- r, (- r, (0, tt))) (r, (r, (h, tt))) (fun t => mkposreal (del t) (DP t))) as (d & HD).
  assert (UP : forall p, in_box r h p -> v p <= M - d).
  { intros [x y z] (X & Y & Z). cbn [px py pz] in X, Y, Z. destruct (Rle_or_lt (v (P3 x y z)) (M - d)) as [|L]; [assumption|]. exfalso.
    refine (HD (x, (y, (z, tt))) _ _); [cbn; tauto|]. intros ((x1 & y1 & z1 & []) & B1 & C1 & D1). cbn in B1, C1. cbn [pos] in *.
    set (q := P3 x1 y1 z1). assert (Q : in_box r h q) by (unfold in_box, q; cbn [px py pz]; tauto).
    destruct (EX q Q) as (e & He). pose proof (proj1 (SU q) e (or_intror He)) as SE.
    unfold del in C1, D1. fold q in C1, D1. destruct (Rlt_dec 0 (sup q / 2)) as [SP|SP]; [|destruct He; lra].
    assert (B : is_upper_bound (fun d => d = 0 \/ E q d) (sup q / 2)).
    { intros f [->|F]; [lra|]. destruct (Rle_or_lt f (sup q / 2)) as [|FF]; [assumption|]. exfalso.
      destruct F as [_ F]. specialize (F (P3 x y z) (conj X (conj Y Z))). unfold close, q in F. cbn [px py pz] in F. specialize (F ltac:(lra)). lra. }
    pose proof (proj2 (SU q) _ B). lra. }
  pose proof (cond_pos d) as Dp. assert (M <= M - d) by (apply M2; intros t (p & P & ->); apply UP, P). lra.
Qed.
(** a harmonic function plus a convex one has no maximum inside *)
Definition quad (a b c e : R) (q : p3) : R := a * px q + b * py q + c * pz q + e * (px q ^ 2 + py q ^ 2 - 2 * pz q ^ 2).
Lemma quad_harmonic a b c e p : harmonic_at (quad a b c e) p.
Proof.
  destruct p as [x y z]. exists (2 * e), (2 * e), (- 4 * e). split; [|split; [|split; [|ring]]].
  - exists (fun t => a + 2 * e * (x + t)). split; [apply filter_forall; intros t|]; unfold quad; cbn [move px py pz]; auto_derive; try exact Logic.I; ring.
  - exists (fun t => b + 2 * e * (y + t)). split; [apply filter_forall; intros t|]; unfold quad; cbn [move px py pz]; auto_derive; try exact Logic.I; ring.
  - exists (fun t => c - 4 * e * (z + t)). split; [apply filter_forall; intros t|]; unfold quad; cbn [move px py pz]; auto_derive; try exact Logic.I; ring.
Qed.
Definition lifted (w : p3 -> R) (eps : R) (q : p3) : R := w q - eps * (px q ^ 2 + py q ^ 2 - 2 * pz q ^ 2) + eps / 2 * (px q ^ 2 + py q ^ 2 + pz q ^ 2).
Lemma lifted_no_hill w eps p d : harmonic_at w p -> 0 < eps -> 0 < d -> exists q, close d q p /\ lifted w eps p < lifted w eps q.
Proof.
  intros H E D.
  pose proof (harmonic_lin w (quad (px p * eps) (py p * eps) (pz p * eps) (- eps)) 1 p H (quad_harmonic _ _ _ _ p)) as HL.
  destruct (harmonic_no_hill _ p (eps / 2) d HL ltac:(lra) D) as (q & Hq & L). exists q. split.
  - unfold distance2 in Hq. pose proof (pow2_ge_0 (px q - px p)). pose proof (pow2_ge_0 (py q - py p)). pose proof (pow2_ge_0 (pz q - pz p)).
    assert (S : forall a, a ^ 2 < d ^ 2 -> Rabs a < d).
    { intros a Ha. apply Rsqr_lt_abs_0 in Ha || (rewrite <- (Rabs_right d) by lra; apply Rsqr_lt_abs_0; unfold Rsqr; lra). }
    unfold close. repeat split; apply S; lra.
  - unfold lifted. unfold quad, distance2 in L. destruct p as [x y z], q as [x' y' z']. cbn [px py pz] in *. lra.
Qed.
Lemma sq_cont x e : 0 < e -> exists d, 0 < d /\ forall y, Rabs (y - x) < d -> Rabs (y ^ 2 - x ^ 2) < e.
Proof.
  intros E. pose proof (Rabs_pos x) as A. assert (D0 : 0 < 2 * Rabs x + 1) by lra.
  exists (Rmin 1 (e / (2 * Rabs x + 1))). split; [apply Rmin_glb_lt; [lra|]; apply Rdiv_lt_0_compat; lra|].
  intros y H. pose proof (Rmin_l 1 (e / (2 * Rabs x + 1))). pose proof (Rmin_r 1 (e / (2 * Rabs x + 1))).
  replace (y ^ 2 - x ^ 2) with ((y - x) * ((y - x) + 2 * x)) by ring. rewrite Rabs_mult.
  pose proof (Rabs_triang (y - x) (2 * x)) as T. rewrite (Rabs_mult 2 x), (Rabs_right 2) in T by lra. pose proof (Rabs_pos (y - x)).
  apply Rle_lt_trans with (Rabs (y - x) * (2 * Rabs x + 1)); [apply Rmult_le_compat_l; lra|].
  replace e with (e / (2 * Rabs x + 1) * (2 * Rabs x + 1)) by (field; lra). apply Rmult_lt_compat_r; lra.
Qed.
(** the values near [p] do not exceed 0 by much *)
Definition sinks (h : R) (w : p3 -> R) (p : p3) : Prop :=
  forall eps, 0 < eps -> exists d, 0 < d /\ forall q, 0 < pz q < h -> close d q p -> w q < eps.
Lemma slab_upper w h B : 0 < h -> (forall p, 0 < pz p < h -> harmonic_at w p /\ tends h w p (w p)) ->
  (forall p, pz p = 0 \/ pz p = h -> sinks h w p) -> (forall p, 0 < pz p < h -> w p <= B) ->
  forall p, 0 < pz p < h -> w p <= 0.
Proof.
  intros Hh IN BD UB.
  assert (B' : exists B, 0 <= B /\ forall p, 0 < pz p < h -> w p <= B).
  { exists (Rmax 0 B). split; [apply Rmax_l|]. intros p P. eapply Rle_trans; [apply UB, P|apply Rmax_r]. }
  clear B UB. destruct B' as (B & B0 & UB).
  set (W := fun q => if Rlt_dec 0 (pz q) then if Rlt_dec (pz q) h then w q else 0 else 0).
  assert (W1 : forall q, 0 < pz q < h -> W q = w q).
  { intros q Q. unfold W. destruct (Rlt_dec 0 (pz q)); [|lra]. destruct (Rlt_dec (pz q) h); [reflexivity|lra]. }
  assert (W0 : forall q, ~ (0 < pz q < h) -> W q = 0).
  { intros q Q. unfold W. destruct (Rlt_dec 0 (pz q)); [|reflexivity]. destruct (Rlt_dec (pz q) h); [|reflexivity]. exfalso. apply Q. lra. }
  assert (SL : forall q, 0 < pz q < h \/ ~ (0 < pz q < h)).
  { intros q. destruct (Rlt_dec 0 (pz q)); [|right; lra]. destruct (Rlt_dec (pz q) h); [left|right]; lra. }
  assert (WB : forall q, W q <= B) by (intros q; destruct (SL q) as [Q|Q]; [rewrite W1 by exact Q; apply UB, Q|rewrite W0 by exact Q; exact B0]).
  assert (WC : forall p eps, 0 <= pz p <= h -> 0 < eps -> exists d, 0 < d /\ forall q, close d q p -> W q <= W p + eps).
  { intros p eps P E. destruct (SL p) as [Q|Q].
    - destruct (proj2 (IN p Q) eps E) as (d & D0 & D). exists (Rmin d (Rmin (pz p) (h - pz p))).
      pose proof (Rmin_l d (Rmin (pz p) (h - pz p))). pose proof (Rmin_r d (Rmin (pz p) (h - pz p))). pose proof (Rmin_l (pz p) (h - pz p)). pose proof (Rmin_r (pz p) (h - pz p)).
      split; [apply Rmin_glb_lt; [exact D0|apply Rmin_glb_lt; lra]|]. intros q (c1 & c2 & c3).
      assert (Q' : 0 < pz q < h) by (assert (c : Rabs (pz q - pz p) < Rmin (pz p) (h - pz p)) by lra; apply Rabs_def2 in c; lra).
      rewrite !W1 by assumption. specialize (D q Q' ltac:(lra) ltac:(lra) ltac:(lra)). apply Rabs_def2 in D. lra.
    - assert (P' : pz p = 0 \/ pz p = h) by (destruct (Req_dec (pz p) 0); [left; assumption|right; lra]).
      destruct (BD p P' eps E) as (d & D0 & D). exists d. split; [exact D0|]. intros q (c1 & c2 & c3). rewrite (W0 p Q).
      destruct (SL q) as [Q'|Q']; [|rewrite (W0 q Q'); lra]. rewrite W1 by exact Q'. specialize (D q Q' (conj c1 (conj c2 c3))). lra. }
  assert (KEY : forall eps, 0 < eps -> forall p, 0 < pz p < h -> w p <= eps * (5 / 2 * h ^ 2 + / 2 * (px p ^ 2 + py p ^ 2))).
  { intros eps E p0 P0.
    assert (RX : exists r, 0 < r /\ 2 * B <= eps * r ^ 2 /\ Rabs (px p0) <= r /\ Rabs (py p0) <= r).
    { exists (Rmax (2 * B / eps + 1) (Rmax (Rabs (px p0)) (Rabs (py p0)))).
      pose proof (Rmax_l (2 * B / eps + 1) (Rmax (Rabs (px p0)) (Rabs (py p0)))) as r1. pose proof (Rmax_r (2 * B / eps + 1) (Rmax (Rabs (px p0)) (Rabs (py p0)))) as r2.
      pose proof (Rmax_l (Rabs (px p0)) (Rabs (py p0))). pose proof (Rmax_r (Rabs (px p0)) (Rabs (py p0))). set (r := Rmax (2 * B / eps + 1) _) in *.
      assert (BE : 0 <= 2 * B / eps) by (unfold Rdiv; apply Rmult_le_pos; [lra|left; apply Rinv_0_lt_compat, E]).
      split; [lra|]. split; [|lra].
      assert (r <= r ^ 2) by (replace (r ^ 2) with (r * r) by ring; rewrite <- (Rmult_1_l r) at 1; apply Rmult_le_compat_r; lra).
      replace (2 * B) with (eps * (2 * B / eps)) by (field; lra). apply Rmult_le_compat_l; lra. }
    destruct RX as (r & R0 & RB & RXp & RYp).
    assert (H2 : forall q, in_box r h q -> pz q ^ 2 <= h ^ 2) by (intros q (_ & _ & Z); apply pow_incr; lra).
    assert (TOP : forall p, in_box r h p -> lifted W eps p <= 5 / 2 * eps * h ^ 2).
    { apply (box_max (lifted W eps) r h _ (B + 5 / 2 * eps * h ^ 2)).
      - intros p e P He. destruct (WC p (e / 2) (proj2 (proj2 P)) ltac:(lra)) as (d & D0 & D).
        assert (e' : 0 < e / (8 * eps)) by (apply Rdiv_lt_0_compat; lra).
        destruct (sq_cont (px p) _ e') as (dx & X0 & X). destruct (sq_cont (py p) _ e') as (dy & Y0 & Y). destruct (sq_cont (pz p) _ e') as (dz & Z0 & Z).
        exists (Rmin d (Rmin dx (Rmin dy dz))). split; [repeat apply Rmin_glb_lt; assumption|].
        intros q _ (c1 & c2 & c3).
        pose proof (Rmin_l d (Rmin dx (Rmin dy dz))). pose proof (Rmin_r d (Rmin dx (Rmin dy dz))). pose proof (Rmin_l dx (Rmin dy dz)). pose proof (Rmin_r dx (Rmin dy dz)). pose proof (Rmin_l dy dz). pose proof (Rmin_r dy dz).
        specialize (D q ltac:(unfold close; lra)). specialize (X (px q) ltac:(lra)). specialize (Y (py q) ltac:(lra)). specialize (Z (pz q) ltac:(lra)).
        apply Rabs_def2 in X. apply Rabs_def2 in Y. apply Rabs_def2 in Z.
        unfold lifted. set (k := e / (8 * eps)) in *. assert (EK : eps * k = e / 8) by (unfold k; field; lra).
        assert (X' : eps * (px p ^ 2 - px q ^ 2) <= eps * k) by (apply Rmult_le_compat_l; lra).
        assert (Y' : eps * (py p ^ 2 - py q ^ 2) <= eps * k) by (apply Rmult_le_compat_l; lra).
        assert (Z' : eps * (pz q ^ 2 - pz p ^ 2) <= eps * k) by (apply Rmult_le_compat_l; lra).
        lra.
      - intros p P. unfold lifted. specialize (WB p). specialize (H2 p P). pose proof (pow2_ge_0 (px p)). pose proof (pow2_ge_0 (py p)).
        assert (0 <= eps * px p ^ 2) by (apply Rmult_le_pos; lra). assert (0 <= eps * py p ^ 2) by (apply Rmult_le_pos; lra). assert (eps * pz p ^ 2 <= eps * h ^ 2) by (apply Rmult_le_compat_l; lra). lra.
      - intros p P. specialize (H2 p P) as Hz2. pose proof (pow2_ge_0 (px p)) as qx. pose proof (pow2_ge_0 (py p)) as qy.
        assert (ex : 0 <= eps * px p ^ 2) by (apply Rmult_le_pos; lra). assert (ey : 0 <= eps * py p ^ 2) by (apply Rmult_le_pos; lra). assert (ez : eps * pz p ^ 2 <= eps * h ^ 2) by (apply Rmult_le_compat_l; lra).
        destruct (SL p) as [Q|Q]; [|left; unfold lifted; rewrite W0 by exact Q; lra].
        pose proof (WB p) as wb. destruct P as (PX & PY & PZ).
        assert (side : forall a, a = r \/ a = - r -> 2 * B <= eps * a ^ 2) by (intros a [->| ->]; [exact RB|replace ((- r) ^ 2) with (r ^ 2) by ring; exact RB]).
        destruct (Req_dec (px p) r) as [E1|E1]; [left; pose proof (side (px p) (or_introl E1)); unfold lifted; lra|].
        destruct (Req_dec (px p) (- r)) as [E2|E2]; [left; pose proof (side (px p) (or_intror E2)); unfold lifted; lra|].
        destruct (Req_dec (py p) r) as [E3|E3]; [left; pose proof (side (py p) (or_introl E3)); unfold lifted; lra|].
        destruct (Req_dec (py p) (- r)) as [E4|E4]; [left; pose proof (side (py p) (or_intror E4)); unfold lifted; lra|].
        right. set (m := Rmin (Rmin (r - px p) (px p + r)) (Rmin (Rmin (r - py p) (py p + r)) (Rmin (pz p) (h - pz p)))).
        assert (m0 : 0 < m) by (unfold m; repeat apply Rmin_glb_lt; lra).
        assert (m1 : m <= r - px p /\ m <= px p + r /\ m <= r - py p /\ m <= py p + r /\ m <= pz p /\ m <= h - pz p).
        { assert (MM : forall a b c, c <= Rmin a b -> c <= a /\ c <= b) by (intros a b c H; pose proof (Rmin_l a b); pose proof (Rmin_r a b); lra).
          destruct (MM _ _ m (Rle_refl _)) as [a1 a2]. destruct (MM _ _ _ a1). destruct (MM _ _ _ a2) as [a3 a4]. destruct (MM _ _ _ a3). destruct (MM _ _ _ a4). tauto. }
        destruct (lifted_no_hill w eps p m (proj1 (IN p Q)) E m0) as (q & (c1 & c2 & c3) & L).
        apply Rabs_def2 in c1. apply Rabs_def2 in c2. apply Rabs_def2 in c3. exists q. split; [unfold in_box; lra|].
        assert (Qq : 0 < pz q < h) by lra. unfold lifted in *. rewrite !W1 by assumption. exact L. }
    assert (P0' : in_box r h p0). { pose proof (proj1 (Rabs_le_between _ _) RXp). pose proof (proj1 (Rabs_le_between _ _) RYp). unfold in_box. lra. }
    specialize (TOP p0 P0'). unfold lifted in TOP. rewrite W1 in TOP by exact P0.
    pose proof (pow2_ge_0 (pz p0)). assert (0 <= eps * pz p0 ^ 2) by (apply Rmult_le_pos; lra). lra. }
  intros p P. destruct (Rle_or_lt (w p) 0) as [|L]; [assumption|]. exfalso.
  set (c := 5 / 2 * h ^ 2 + / 2 * (px p ^ 2 + py p ^ 2)) in *.
  assert (c0 : 0 < c) by (unfold c; pose proof (pow_lt h 2 Hh); pose proof (pow2_ge_0 (px p)); pose proof (pow2_ge_0 (py p)); lra).
  pose proof (KEY (w p / (2 * c)) ltac:(apply Rdiv_lt_0_compat; lra) p P) as K. fold c in K. replace (w p / (2 * c) * c) with (w p / 2) in K by (field; lra). lra.
Qed.
Lemma slab_below w h B : 0 < h -> (forall p, 0 < pz p < h -> harmonic_at w p /\ tends h w p (w p)) ->
  (forall p, pz p = 0 \/ pz p = h -> tends h w p 0) -> (forall p, 0 < pz p < h -> w p <= B) ->
  forall p, 0 < pz p < h -> w p <= 0.
Proof.
  intros Hh IN BD UB. apply (slab_upper w h B Hh IN); [|exact UB]. intros p P eps E. destruct (BD p P eps E) as (d & D0 & D).
  exists d. split; [exact D0|]. intros q Q (c1 & c2 & c3). specialize (D q Q c1 c2 c3). apply Rabs_def2 in D. lra.
Qed.
Lemma tends_lin h f g p a b c : tends h f p a -> tends h g p b -> tends h (fun q => f q + c * g q) p (a + c * b).
Proof.
  intros F G eps E. pose proof (Rabs_pos c) as C0.
  destruct (F (eps / 2) ltac:(lra)) as (d1 & D1 & H1). destruct (G (eps / (2 * (Rabs c + 1))) ltac:(apply Rdiv_lt_0_compat; lra)) as (d2 & D2 & H2).
  exists (Rmin d1 d2). split; [apply Rmin_glb_lt; assumption|]. intros q Q c1 c2 c3. pose proof (Rmin_l d1 d2). pose proof (Rmin_r d1 d2).
  specialize (H1 q Q ltac:(lra) ltac:(lra) ltac:(lra)). specialize (H2 q Q ltac:(lra) ltac:(lra) ltac:(lra)).
  replace (f q + c * g q - (a + c * b)) with ((f q - a) + c * (g q - b)) by ring. eapply Rle_lt_trans; [apply Rabs_triang|]. rewrite Rabs_mult.
  assert (Rabs c * Rabs (g q - b) <= Rabs c * (eps / (2 * (Rabs c + 1)))) by (apply Rmult_le_compat_l; lra).
  assert (Rabs c * (eps / (2 * (Rabs c + 1))) <= eps / 2).
  { apply Rmult_le_reg_r with (2 * (Rabs c + 1)); [lra|]. replace (Rabs c * (eps / (2 * (Rabs c + 1))) * (2 * (Rabs c + 1))) with (Rabs c * eps) by (field; lra).
    replace (eps / 2 * (2 * (Rabs c + 1))) with ((Rabs c + 1) * eps) by field. apply Rmult_le_compat_r; lra. }
  lra.
Qed.
Lemma tends_ext h f g p a b : (forall q, f q = g q) -> a = b -> tends h f p a -> tends h g p b.
Proof. intros E <- H eps e. destruct (H eps e) as (d & D0 & D). exists d. split; [exact D0|]. intros q Q c1 c2 c3. rewrite <- E. apply D; assumption. Qed.
Lemma between_le h phi c u v : 0 < h -> between h phi c u -> between h phi c v -> forall p, 0 < pz p < h -> u p <= v p.
Proof.
  intros Hh (U1 & U2 & U3 & BU & U4) (V1 & V2 & V3 & BV & V4) p P.
  assert (Q : (fun q => u q + -1 * v q) p <= 0).
  { apply (slab_below (fun q => u q + -1 * v q) h (BU + BV) Hh); [| | |exact P].
    - intros q Q. destruct (U1 q Q) as [A B]. destruct (V1 q Q) as [A' B']. split; [apply harmonic_lin; assumption|]. apply tends_lin; assumption.
    - intros q [Q|Q].
      + apply (tends_ext h (fun r => (u r - phi r) + -1 * (v r - phi r)) _ q (0 + -1 * 0)); [intros r; ring|ring|]. apply tends_lin; [apply U2, Q|apply V2, Q].
      + apply (tends_ext h (fun r => u r + -1 * v r) _ q (c + -1 * c)); [intros r; ring|ring|]. apply tends_lin; [apply U3, Q|apply V3, Q].
    - intros q Q. specialize (U4 q Q). specialize (V4 q Q). apply Rabs_le_between in U4. apply Rabs_le_between in V4. lra. }
  cbv beta in Q. lra.
Qed.
Lemma between_unique h phi c u v : 0 < h -> between h phi c u -> between h phi c v -> forall p, 0 < pz p < h -> u p = v p.
Proof. intros Hh U V p P. apply Rle_antisym; eapply between_le; eassumption. Qed.
Lemma between_lin h f g a b u v c : between h f a u -> between h g b v -> between h (fun q => f q + c * g q) (a + c * b) (fun q => u q + c * v q).
Proof.
  intros (U1 & U2 & U3 & BU & U4) (V1 & V2 & V3 & BV & V4). split; [|split; [|split]].
  - intros q Q. destruct (U1 q Q) as [A B]. destruct (V1 q Q) as [A' B']. split; [apply harmonic_lin; assumption|]. apply tends_lin; assumption.
  - intros q Q. apply (tends_ext h (fun r => (u r - f r) + c * (v r - g r)) _ q (0 + c * 0)); [intros r; ring|ring|]. apply tends_lin; [apply U2, Q|apply V2, Q].
  - intros q Q. apply tends_lin; [apply U3, Q|apply V3, Q].
  - exists (BU + Rabs c * BV). intros p P. replace (u p + c * v p - (f p + c * g p)) with ((u p - f p) + c * (v p - g p)) by ring.
    eapply Rle_trans; [apply Rabs_triang|]. rewrite Rabs_mult. apply Rplus_le_compat; [apply U4, P|]. apply Rmult_le_compat_l; [apply Rabs_pos|apply V4, P].
Qed.

(** ** the limit is continuous *)
Definition cont (f : p3 -> R) (p : p3) : Prop := forall eps, 0 < eps -> exists d, 0 < d /\ forall q, close d q p -> Rabs (f q - f p) < eps.
Lemma bare_cont g S p : flat_area g S -> pz p <> 0 -> cont (bare g) p.
Proof.
  intros F P eps E. pose proof (area_nonneg g S F) as S0'. set (y := Rabs (pz p) / 2).
  assert (Y : 0 < y) by (unfold y; pose proof (Rabs_pos_lt _ P); lra). assert (Y2 : 2 * y <= Rabs (pz p)) by (unfold y; lra).
  set (K := S * / y ^ 3). assert (K0 : 0 <= K) by (unfold K; apply Rmult_le_pos; [exact S0'|left; apply Rinv_0_lt_compat, pow_lt, Y]).
  exists (Rmin y (eps / (3 * (K + 1)))). split; [apply Rmin_glb_lt; [exact Y|apply Rdiv_lt_0_compat; lra]|].
  intros q (c1 & c2 & c3). pose proof (Rmin_l y (eps / (3 * (K + 1)))). pose proof (Rmin_r y (eps / (3 * (K + 1)))).
  set (a := px q - px p) in *. set (b := py q - py p) in *. set (c := pz q - pz p) in *.
  set (p1 := move 0 a p). set (p2 := move 1 b p1).
  assert (EQ : q = move 2 c p2) by (destruct p, q; unfold p2, p1, a, b, c; cbn; f_equal; ring).
  pose proof (bare_diff1 g S 0 p y a F Y Y2 ltac:(lra)) as D1. fold p1 in D1.
  pose proof (bare_diff1 g S 1 p1 y b F Y Y2 ltac:(lra)) as D2. fold p2 in D2.
  pose proof (bare_diff1 g S 2 p2 y c F Y Y2 ltac:(lra)) as D3. rewrite <- EQ in D3.
  rewrite <- Rmult_assoc in D1, D2, D3. fold K in D1, D2, D3.
  replace (bare g q - bare g p) with ((bare g q - bare g p2) + (bare g p2 - bare g p1) + (bare g p1 - bare g p)) by ring.
  pose proof (Rabs_triang (bare g q - bare g p2 + (bare g p2 - bare g p1)) (bare g p1 - bare g p)) as T1. pose proof (Rabs_triang (bare g q - bare g p2) (bare g p2 - bare g p1)) as T2.
  set (e := eps / (3 * (K + 1))) in *. assert (EE : (K + 1) * e = eps / 3) by (unfold e; field; lra). assert (e0 : 0 < e) by (unfold e; apply Rdiv_lt_0_compat; lra).
  assert (B : forall t, Rabs t < e -> K * Rabs t < eps / 3).
  { intros t Ht. pose proof (Rabs_pos t). assert (K * Rabs t <= K * e) by (apply Rmult_le_compat_l; lra). lra. }
  pose proof (B a ltac:(lra)). pose proof (B b ltac:(lra)). pose proof (B c ltac:(lra)). lra.
Qed.
Lemma cont_plus f g p : cont f p -> cont g p -> cont (fun q => f q + g q) p.
Proof.
  intros F G eps E. destruct (F (eps / 2) ltac:(lra)) as (d1 & D1 & H1). destruct (G (eps / 2) ltac:(lra)) as (d2 & D2 & H2).
  exists (Rmin d1 d2). split; [apply Rmin_glb_lt; assumption|]. intros q (c1 & c2 & c3). pose proof (Rmin_l d1 d2). pose proof (Rmin_r d1 d2).
  specialize (H1 q ltac:(unfold close; lra)). specialize (H2 q ltac:(unfold close; lra)).
  replace (f q + g q - (f p + g p)) with ((f q - f p) + (g q - g p)) by ring. eapply Rle_lt_trans; [apply Rabs_triang|]. lra.
Qed.
Lemma cont_image g S h k p : flat_area g S -> pz (image h k p) <> 0 -> cont (fun q => bare g (image h k q)) p.
Proof.
  intros F P eps E. destruct (bare_cont g S _ F P eps E) as (d & D0 & D). exists d. split; [exact D0|]. intros q (c1 & c2 & c3). apply D.
  unfold close, image. cbn [px py pz]. replace (pz q + 2 * IZR k * h - (pz p + 2 * IZR k * h)) with (pz q - pz p) by ring. auto.
Qed.
Lemma cont_ext f g p : (forall q, f q = g q) -> cont f p -> cont g p.
Proof. intros E H eps e. destruct (H eps e) as (d & D0 & D). exists d. split; [exact D0|]. intros q Q. rewrite <- !E. apply D, Q. Qed.
Lemma covered_cont g S n h p : flat_area g S -> 0 < h -> slab h p -> cont (covered g n h) p.
Proof.
  intros F Hh P. induction n as [|n IH].
  - apply (cont_ext (bare g)); [|apply (bare_cont g S p F)].
    + intros [x y z]. rewrite (covered_sum g S) by exact F. change (images (Z.of_nat 0)) with [0%Z]. unfold sum_over. cbn [map sumR]. unfold bare. replace (z + 2 * 0 * h) with z by ring. ring.
    + unfold slab in P. lra.
  - apply (cont_ext (fun q => covered g n h q + (bare g (image h (- Z.of_nat (Datatypes.S n)) q) + bare g (image h (Z.of_nat (Datatypes.S n)) q)))).
    + intros q. rewrite <- (step_eq g S) by exact F. ring.
    + apply cont_plus; [exact IH|]. apply cont_plus; apply (cont_image g S h _ p F); apply slab_off; assumption.
Qed.
Lemma limit_error g S h p n : flat_area g S -> 0 < h -> 0 <= pz p <= h -> (1 <= n)%nat ->
  Rabs (covered g n h p - limit_potential g h p) <= S * pz p / (8 * PI * h ^ 3 * INR n ^ 2).
Proof.
  intros F Hh Hp Hn. destruct p as [x y z]. cbn [pz] in *. destruct (images_limit g S h x y z F Hh Hp) as (L & HL & B & _).
  unfold limit_potential. rewrite (is_lim_seq_unique _ _ HL). apply B, Hn.
Qed.
Lemma limit_uniform g S h eps : flat_area g S -> 0 < h -> 0 < eps -> exists n, forall p, 0 <= pz p <= h -> Rabs (covered g n h p - limit_potential g h p) < eps.
Proof.
  intros F Hh E. pose proof (area_nonneg g S F) as S0'. pose proof pi3 as PP. pose proof (pow_lt h 3 Hh) as H3.
  set (K := S * h / (8 * PI * h ^ 3)).
  assert (D0 : 0 < 8 * PI * h ^ 3) by (apply Rmult_lt_0_compat; lra).
  assert (K0 : 0 <= K) by (unfold K, Rdiv; apply Rmult_le_pos; [apply Rmult_le_pos; lra|left; apply Rinv_0_lt_compat, D0]).
  destruct (nfloor_ex (K / eps)) as (N & HN); [unfold Rdiv; apply Rmult_le_pos; [exact K0|left; apply Rinv_0_lt_compat, E]|].
  exists (Datatypes.S N). intros p P. eapply Rle_lt_trans; [apply (limit_error g S h p _ F Hh P); lia|].
  set (c := INR (Datatypes.S N)). assert (C : K / eps < c) by (unfold c; rewrite S_INR; lra). assert (c1 : 1 <= c) by (unfold c; rewrite S_INR; pose proof (pos_INR N); lra).
  assert (c2 : c <= c ^ 2) by (replace (c ^ 2) with (c * c) by ring; rewrite <- (Rmult_1_l c) at 1; apply Rmult_le_compat_r; lra).
  apply Rle_lt_trans with (K / c ^ 2).
  - replace (K / c ^ 2) with (S * h / (8 * PI * h ^ 3 * c ^ 2)) by (unfold K; field; repeat split; lra).
    unfold Rdiv. apply Rmult_le_compat_r; [left; apply Rinv_0_lt_compat, Rmult_lt_0_compat; lra|]. apply Rmult_le_compat_l; lra.
  - apply Rmult_lt_reg_r with (c ^ 2); [lra|]. unfold Rdiv. rewrite Rmult_assoc, Rinv_l, Rmult_1_r by lra.
    assert (K < c * eps) by (replace K with (K / eps * eps) by (field; lra); apply Rmult_lt_compat_r; assumption).
    assert (c * eps <= c ^ 2 * eps) by (apply Rmult_le_compat_r; lra). lra.
Qed.
Lemma limit_cont g S h p : flat_area g S -> 0 < h -> 0 < pz p < h -> tends h (limit_potential g h) p (limit_potential g h p).
Proof.
  intros F Hh Hp eps E. destruct (limit_uniform g S h (eps / 3) F Hh ltac:(lra)) as (n & N).
  destruct (covered_cont g S n h p F Hh ltac:(unfold slab; lra) (eps / 3) ltac:(lra)) as (d & D0 & D).
  exists d. split; [exact D0|]. intros q Q c1 c2 c3. specialize (D q (conj c1 (conj c2 c3))).
  pose proof (N q ltac:(lra)) as Nq. pose proof (N p ltac:(lra)) as Np. set (L := limit_potential g h) in *.
  apply Rabs_def2 in D. apply Rabs_def2 in Nq. apply Rabs_def2 in Np. apply Rabs_def1; lra.
Qed.
Lemma small_at h f p z0 K : 0 < h -> 0 <= K -> pz p = z0 -> (forall q, 0 < pz q < h -> Rabs (pz q - z0) < h / 2 -> Rabs (f q) <= K * Rabs (pz q - z0)) -> tends h f p 0.
Proof.
  intros Hh K0 P H eps E. exists (Rmin (h / 2) (eps / (K + 1))). split; [apply Rmin_glb_lt; [lra|apply Rdiv_lt_0_compat; lra]|].
  intros q Q _ _ c. rewrite P in c. pose proof (Rmin_l (h / 2) (eps / (K + 1))). pose proof (Rmin_r (h / 2) (eps / (K + 1))). rewrite Rminus_0_r.
  eapply Rle_lt_trans; [apply H; [exact Q|lra]|]. set (e := eps / (K + 1)) in *. assert (EE : (K + 1) * e = eps) by (unfold e; field; lra). assert (e0 : 0 < e) by (unfold e; apply Rdiv_lt_0_compat; lra).
  assert (K * Rabs (pz q - z0) <= K * e) by (apply Rmult_le_compat_l; lra). lra.
Qed.
Lemma limit_grounded g S h : flat_area g S -> 0 < h -> between h (covered g 0 h) 0 (limit_potential g h).
Proof.
  intros F Hh. pose proof (area_nonneg g S F) as S0'. pose proof pi3 as PP. pose proof (pow_lt h 3 Hh) as H3.
  assert (D0 : 0 < PI * h ^ 3) by (apply Rmult_lt_0_compat; lra).
  assert (I0 : 0 < / (PI * h ^ 3)) by (apply Rinv_0_lt_compat, D0).
  set (K := 17 * S * / (PI * h ^ 3)). assert (K0 : 0 <= K) by (unfold K; apply Rmult_le_pos; lra).
  assert (PL : forall q, 0 < pz q < h -> Rabs (limit_potential g h q - covered g 0 h q) <= K * pz q).
  { intros q Q. eapply Rle_trans; [apply (limit_plane g S h q F Hh); lra|].
    replace (17 * S * pz q / (8 * PI * h ^ 3)) with (/ 8 * (K * pz q)) by (unfold K; field; lra). assert (0 <= K * pz q) by (apply Rmult_le_pos; lra). lra. }
  split; [|split; [|split]].
  - intros p P. split; [|apply (limit_cont g S); assumption].
    apply (harmonic_ext (limit_entry g h 0 [])); [intros q; apply (limit_eq g S), F|apply (limit_harmonic g S h p F Hh)]. unfold slab. lra.
  - intros p P. apply (small_at h _ p 0 K Hh K0 P). intros q Q _. rewrite Rminus_0_r, (Rabs_right (pz q)) by lra. apply PL, Q.
  - intros p P. apply (small_at h _ p h K Hh K0 P). intros q Q c. rewrite (Rabs_left1 (pz q - h)) by lra. rewrite (Rabs_left1 (pz q - h)) in c by lra.
    eapply Rle_trans; [apply (limit_cover g S h q F Hh); lra|]. right. unfold K. field. lra.
  - exists (K * h). intros p P. eapply Rle_trans; [apply PL, P|]. apply Rmult_le_compat_l; lra.
Qed.

(** ** systems *)
Definition low (d : nat) (idx : list nat) : Prop := (d = 0%nat /\ idx = []) \/ exists k, (k < 3)%nat /\ d = 1%nat /\ idx = [k].
Lemma low_entry s t d idx p : (forall e, In e s -> well_formed (egeom e)) -> low d idx -> tensor_entry s t d idx p = sys_term s t d (hd 0%nat idx) p.
Proof.
  intros W [[-> ->]|(k & K & -> & ->)]; (rewrite tensor_entry_eq; [|exact W|lia|first [exact idx0|exact (idx1 k K)]]); [reflexivity|].
  destruct k as [|[|[|k]]]; [reflexivity..|lia].
Qed.
Lemma part_wf h area s n e : below_cover h area s -> In e (with_images n h s) -> well_formed (egeom e).
Proof.
  intros H I. apply in_map_iff in I. destruct I as (e0 & <- & I). cbn [egeom]. destruct (H e0 I) as [F|[-> _]]; [|exact Logic.I].
  pose proof (flat_ok _ _ F) as [P W]. apply with_cover_wf; assumption.
Qed.
Lemma system_entry h area s t n d idx p : below_cover h area s -> low d idx ->
  tensor_entry (with_images n h s) t d idx p = sum_over s (fun e => voltage t e * covered_entry (egeom e) n h d idx p).
Proof.
  intros H L. rewrite low_entry; [|intros e; apply (part_wf h area s n e H)|exact L]. unfold sys_term, with_images, sum_over at 1. rewrite map_map. unfold sum_over. f_equal. apply map_ext_in. intros e He. cbn [egeom].
  unfold covered_entry. rewrite low_entry; [| |exact L].
  - unfold sys_term, sum_over. cbn [map sumR egeom]. unfold volt_of, voltage, volt. cbn [edc erf]. destruct t; ring.
  - intros e' [<-|[]]. cbn [egeom]. apply (part_wf h area s n (Electrode (ename e) (edc e) (erf e) (with_cover (Z.of_nat n) h (egeom e))) H). apply in_map_iff. exists e. auto.
Qed.
Definition exact_part (h : R) (g : geom) (p : p3) : R := match g with ECover _ => pz p / h | _ => limit_potential g h p end.
Lemma cover_entry n h p : covered_entry (ECover h) n h 0 [] p = pz p / h.
Proof.
  unfold covered_entry. rewrite low_entry; [|intros e [<-|[]]; exact Logic.I|left; auto]. unfold sys_term, sum_over. cbn. ring.
Qed.
Lemma tends_const h c p : tends h (fun _ => c) p c.
Proof. intros eps E. exists 1. split; [lra|]. intros q _ _ _ _. rewrite Rminus_eq_0, Rabs_R0. exact E. Qed.
Lemma tends_pz h p a : tends h (fun q => a * pz q) p (a * pz p).
Proof.
  apply (tends_ext h (fun q => 0 + a * pz q) _ p (0 + a * pz p)); [intros; ring|ring|]. apply (tends_lin h (fun _ => 0) pz); [apply tends_const|].
  intros eps E. exists eps. split; [exact E|]. intros q _ _ _ c. exact c.
Qed.
Lemma cover_between h : 0 < h -> between h (fun p => pz p / h) 1 (fun p => pz p / h).
Proof.
  intros Hh. split; [|split; [|split]].
  - intros p P. split.
    + apply (harmonic_ext (quad 0 0 (/ h) 0)); [intros q; unfold quad; field; lra|apply quad_harmonic].
    + apply (tends_ext h (fun q => / h * pz q) _ p (/ h * pz p)); [intros; field; lra|field; lra|apply tends_pz].
  - intros p _. apply (tends_ext h (fun _ => 0) _ p 0); [intros; ring|reflexivity|apply tends_const].
  - intros p P. apply (tends_ext h (fun q => / h * pz q) _ p (/ h * pz p)); [intros; field; lra|rewrite P; field; lra|apply tends_pz].
  - exists 0. intros p _. rewrite Rminus_eq_0, Rabs_R0. lra.
Qed.
Lemma between_ext h f g a b u v : (forall q, f q = g q) -> a = b -> (forall q, u q = v q) -> between h f a u -> between h g b v.
Proof.
  intros E <- V (U1 & U2 & U3 & B & U4). split; [|split; [|split]].
  - intros p P. destruct (U1 p P) as [A T]. split; [apply (harmonic_ext u); assumption|]. apply (tends_ext h u _ p (u p)); auto.
  - intros p P. apply (tends_ext h (fun q => u q - f q) _ p 0); [intros q; rewrite E, V; reflexivity|reflexivity|apply U2, P].
  - intros p P. apply (tends_ext h u _ p a); auto.
  - exists B. intros p P. rewrite <- E, <- V. apply U4, P.
Qed.
Definition exact_system (h : R) (t : vtyp) (s : list electrode) (p : p3) : R := sum_over s (fun e => voltage t e * exact_part h (egeom e) p).
Lemma part_between h area s e : 0 < h -> below_cover h area s -> In e s ->
  between h (covered_entry (egeom e) 0 h 0 []) (match egeom e with ECover _ => 1 | _ => 0 end) (exact_part h (egeom e)).
Proof.
  intros Hh H I. destruct (H e I) as [F|[E _]].
  - apply (between_ext h (covered (egeom e) 0 h) _ 0 _ (limit_potential (egeom e) h)); [intros q; symmetry; apply (entry_0 _ _ _ _ _ F)| | |apply (limit_grounded _ _ h F Hh)];
      destruct (egeom e); cbn in F; try contradiction; reflexivity.
  - rewrite E. cbn [exact_part]. apply (between_ext h (fun p => pz p / h) _ 1 _ (fun p => pz p / h)); [intros q; symmetry; apply cover_entry|reflexivity|reflexivity|apply cover_between, Hh].
Qed.
Lemma system_between h area s t : 0 < h -> below_cover h area s ->
  between h (tensor_entry (with_images 0 h s) t 0 []) (cover_voltage t s) (exact_system h t s).
Proof.
  intros Hh H. apply (between_ext h (fun p => sum_over s (fun e => voltage t e * covered_entry (egeom e) 0 h 0 [] p)) _ (cover_voltage t s) _ (exact_system h t s));
    [intros q; symmetry; apply (system_entry h area); [exact H|left; auto]|reflexivity|reflexivity|].
  unfold exact_system, cover_voltage. induction s as [|e s IH].
  - unfold sum_over. cbn [map sumR]. split; [|split; [|split]].
    + intros p _. split; [|apply tends_const]. apply (harmonic_ext (quad 0 0 0 0)); [intros q; unfold quad; ring|apply quad_harmonic].
    + intros p _. apply (tends_ext h (fun _ => 0) _ p 0); [intros; ring|reflexivity|apply tends_const].
    + intros p _. apply tends_const.
    + exists 0. intros p _. rewrite Rminus_eq_0, Rabs_R0. lra.
  - assert (H' : below_cover h area s) by (intros x Hx; apply H; right; exact Hx).
    pose proof (between_lin h _ _ _ _ _ _ (voltage t e) (IH H') (part_between h area (e :: s) e Hh H (or_introl eq_refl))) as B.
    revert B. apply between_ext; [intros q; unfold sum_over; cbn [map sumR]; ring|unfold sum_over; cbn [map sumR]; destruct (egeom e); ring|intros q; unfold sum_over; cbn [map sumR]; ring].
Qed.
Lemma system_exists h area s t : 0 < h -> below_cover h area s -> exists u, between h (tensor_entry (with_images 0 h s) t 0 []) (cover_voltage t s) u.
Proof. intros Hh H. exists (exact_system h t s). apply (system_between h area); assumption. Qed.
Lemma system_error h area s t u p n : 0 < h -> below_cover h area s -> between h (tensor_entry (with_images 0 h s) t 0 []) (cover_voltage t s) u ->
  0 < pz p < h -> (1 <= n)%nat ->
  Rabs (tensor_entry (with_images n h s) t 0 [] p - u p) <= sum_over s (fun e => Rabs (voltage t e) * area e) * pz p / (8 * PI * h ^ 3 * INR n ^ 2).
Proof.
  intros Hh H U P N. rewrite (between_unique h _ _ u (exact_system h t s) Hh U (system_between h area s t Hh H) p P).
  rewrite (system_entry h area) by (try exact H; left; auto). unfold exact_system. rewrite sum_minus.
  set (k := pz p / (8 * PI * h ^ 3 * INR n ^ 2)). replace (sum_over s (fun e => Rabs (voltage t e) * area e) * pz p / (8 * PI * h ^ 3 * INR n ^ 2)) with (k * sum_over s (fun e => Rabs (voltage t e) * area e)) by (unfold k, Rdiv; ring).
  rewrite sum_scal'. apply sum_abs. intros e I.
  replace (voltage t e * covered_entry (egeom e) n h 0 [] p - voltage t e * exact_part h (egeom e) p) with (voltage t e * (covered_entry (egeom e) n h 0 [] p - exact_part h (egeom e) p)) by ring.
  rewrite Rabs_mult. replace (k * (Rabs (voltage t e) * area e)) with (Rabs (voltage t e) * (area e * pz p / (8 * PI * h ^ 3 * INR n ^ 2))) by (unfold k, Rdiv; ring).
  apply Rmult_le_compat_l; [apply Rabs_pos|]. destruct (H e I) as [F|[E A]].
  - rewrite (entry_0 _ _ _ _ _ F). replace (exact_part h (egeom e) p) with (limit_potential (egeom e) h p) by (destruct (egeom e); cbn in F; try contradiction; reflexivity).
    apply (limit_error _ _ h p n F Hh); [lra|exact N].
  - rewrite E, A. cbn [exact_part]. rewrite cover_entry, Rminus_eq_0, Rabs_R0. unfold Rdiv. rewrite !Rmult_0_l. lra.
Qed.
Lemma part_field h area s e k p : 0 < h -> below_cover h area s -> In e s -> 0 < pz p < h -> (k < 3)%nat -> exists l : R,
  partial (exact_part h (egeom e)) k p l /\ is_lim_seq (fun n => covered_entry (egeom e) n h 1 [k] p) l.
Proof.
  intros Hh H I P K. destruct (H e I) as [F|[E _]].
  - assert (SP : slab h p) by (unfold slab; lra). assert (E1 : bounded_entry 1 [k]) by (right; left; exists k; auto).
    exists (limit_entry (egeom e) h 1 [k] p). split; [|apply (entry_lim _ _ h 1 [k] p F Hh E1 SP)].
    pose proof (limit_d _ _ h 0 [] k p F Hh K (or_introl (conj eq_refl eq_refl)) E1 0) as D. rewrite move_0 in D. specialize (D SP).
    apply (is_derive_ext (fun t => limit_entry (egeom e) h 0 [] (move k t p))); [|exact D].
    intros t. rewrite (limit_eq _ _ _ _ F). destruct (egeom e); cbn in F; try contradiction; reflexivity.
  - rewrite E. exists (covered_entry (ECover h) 0 h 1 [k] p). split; [|apply is_lim_seq_ext with (fun _ => covered_entry (ECover h) 0 h 1 [k] p); [reflexivity|apply is_lim_seq_const]].
    apply (is_derive_ext (fun t => covered_entry (ECover h) 0 h 0 [] (move k t p))); [intros t; apply cover_entry|].
    unfold covered_entry. refine (proj2 (proj2 (smooth_derivatives _ TDc 0 p [] k _ _ K idx0))); [|lia]. intros e' [<-|[]]. exact Logic.I.
Qed.
Lemma system_field h area s t u p k : 0 < h -> below_cover h area s -> between h (tensor_entry (with_images 0 h s) t 0 []) (cover_voltage t s) u ->
  0 < pz p < h -> (k < 3)%nat -> exists l : R, partial u k p l /\ is_lim_seq (fun n => tensor_entry (with_images n h s) t 1 [k] p) l.
Proof.
  intros Hh H U P K.
  assert (X : exists l : R, partial (exact_system h t s) k p l /\ is_lim_seq (fun n => sum_over s (fun e => voltage t e * covered_entry (egeom e) n h 1 [k] p)) l).
  { unfold exact_system. clear U. induction s as [|e s IH].
    - exists 0. split; [apply (is_derive_const (V := R_NormedModule) 0)|apply is_lim_seq_const].
    - destruct (IH (fun x Hx => H x (or_intror Hx))) as (l & D & L). destruct (part_field h area (e :: s) e k p Hh H (or_introl eq_refl) P K) as (l' & D' & L').
      exists (voltage t e * l' + l). split.
      + exact (is_derive_plus _ _ 0 _ _ (is_derive_scal _ 0 (voltage t e) _ D') D).
      + apply (is_lim_seq_plus' (fun n => voltage t e * covered_entry (egeom e) n h 1 [k] p)); [|exact L]. apply (is_lim_seq_scal_l _ (voltage t e) (Finite l') L'). }
  destruct X as (l & D & L). exists l. split.
  - apply (is_derive_ext_loc (fun r => exact_system h t s (move k r p))); [|exact D].
    assert (M : 0 < Rmin (pz p) (h - pz p)) by (apply Rmin_glb_lt; lra). exists (mkposreal _ M). intros r Hr.
    assert (T : Rabs r < Rmin (pz p) (h - pz p)) by (unfold ball in Hr; cbn in Hr; unfold AbsRing_ball, minus, plus, opp, abs in Hr; cbn in Hr; rewrite Ropp_0, Rplus_0_r in Hr; exact Hr).
    pose proof (Rmin_l (pz p) (h - pz p)). pose proof (Rmin_r (pz p) (h - pz p)). apply Rabs_def2 in T.
    symmetry. apply (between_unique h _ _ u (exact_system h t s) Hh U (system_between h area s t Hh H)).
    destruct k as [|[|k]]; cbn [move pz]; lra.
  - apply is_lim_seq_ext with (2 := L). intros n. symmetry. apply (system_entry h area); [exact H|right; exists k; auto].
Qed.
