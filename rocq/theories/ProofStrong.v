(** Proof of the strict parts of C185 and C187: a function that is nowhere above C and
    somewhere below is below everywhere. *)
From Coquelicot Require Import Coquelicot.
From Verif Require Import Base ModelExpr ModelUtils ModelField ModelGeom ModelSearch SpecTensor SpecField SpecPoly SpecMax SpecTile SpecEarnshaw SpecCover SpecDirichlet SpecMinimum SpecFar SpecBarrier SpecCompare
  ProofField ProofDeriv ProofSys ProofPseudo ProofPoly ProofPoly2 ProofPoly3 ProofEarnshaw ProofCover4 ProofDirichlet ProofDirichlet2 ProofCentre ProofMin ProofMin2 ProofMin3 ProofMin4 ProofCompare ProofFar ProofFar2 ProofBarrier ProofCompare2.
Import ListNotations.
Open Scope R_scope.
Notation length := List.length.

Lemma harmonic_sub f q : harmonic_at f q -> subharmonic f q.
Proof. intros (a & b & c & A & B & C & Z). exists a, b, c. repeat split; auto; lra. Qed.
Lemma subharmonic_lin f g c p : 0 <= c -> subharmonic f p -> subharmonic g p -> subharmonic (fun q => f q + c * g q) p.
Proof.
  intros H. assert (A : forall j l m, second_partial f j p l -> second_partial g j p m -> second_partial (fun q => f q + c * g q) j p (l + c * m)).
  { intros j l m (f' & F & F2) (g' & G & G2). exists (fun t => f' t + c * g' t). split.
    - generalize (filter_and _ _ F G). apply filter_imp. intros t [H1 H2]. exact (is_derive_plus _ _ t _ _ H1 (is_derive_scal _ t c _ H2)).
    - exact (is_derive_plus _ _ 0 _ _ F2 (is_derive_scal _ 0 c _ G2)). }
  intros (a1 & a2 & a3 & A1 & A2 & A3 & S1) (b1 & b2 & b3 & B1 & B2 & B3 & S2).
  exists (a1 + c * b1), (a2 + c * b2), (a3 + c * b3). split; [apply A; assumption|]. split; [apply A; assumption|]. split; [apply A; assumption|].
  replace (a1 + c * b1 + (a2 + c * b2) + (a3 + c * b3)) with (a1 + a2 + a3 + c * (b1 + b2 + b3)) by ring.
  assert (0 <= c * (b1 + b2 + b3)) by (apply Rmult_le_pos; assumption). lra.
Qed.
(** ** one over the square of the distance *)
Lemma inv_second x b : 0 < x ^ 2 + b -> exists g, locally 0 (fun t => is_derive (fun u => / ((x + u) ^ 2 + b)) t (g t)) /\
  is_derive g 0 (8 * x ^ 2 / (x ^ 2 + b) ^ 3 - 2 / (x ^ 2 + b) ^ 2).
Proof.
  intros P. exists (fun t => - (2 * (x + t)) / ((x + t) ^ 2 + b) ^ 2). split.
  - assert (C : continuous (fun t => (x + t) ^ 2 + b) 0) by (apply (ex_derive_continuous (fun t => (x + t) ^ 2 + b)); auto_derive; auto).
    assert (L : locally 0 (fun t => 0 < (x + t) ^ 2 + b)). { apply (C (fun y => 0 < y)). apply (open_gt 0). rewrite Rplus_0_r. exact P. }
    revert L. apply filter_imp. intros t H. auto_derive; [lra|]. field. lra.
  - auto_derive; rewrite Rplus_0_r; [|field; lra]. apply Rgt_not_eq. match goal with |- ?t > 0 => replace t with ((x ^ 2 + b) ^ 2) by ring end. apply pow_lt, P.
Qed.
Lemma inv_subharmonic c p : 0 < distance2 p c -> subharmonic (fun q => / distance2 q c) p.
Proof.
  intros D. set (d := distance2 p c) in *. set (x := px p - px c). set (y := py p - py c). set (z := pz p - pz c).
  assert (E : d = x ^ 2 + (y ^ 2 + z ^ 2)) by (unfold d, distance2, x, y, z; ring).
  exists (8 * x ^ 2 / d ^ 3 - 2 / d ^ 2), (8 * y ^ 2 / d ^ 3 - 2 / d ^ 2), (8 * z ^ 2 / d ^ 3 - 2 / d ^ 2).
  assert (X : forall a b, a ^ 2 + b = d -> exists g, locally 0 (fun t => is_derive (fun u => / ((a + u) ^ 2 + b)) t (g t)) /\ is_derive g 0 (8 * a ^ 2 / d ^ 3 - 2 / d ^ 2)).
  { intros a b H. rewrite <- H. apply inv_second. rewrite H. exact D. }
  split; [|split; [|split]].
  - destruct (X x (y ^ 2 + z ^ 2)) as (g & A & B); [lra|]. exists g. split; [|exact B]. revert A. apply filter_imp. intros t. apply is_derive_ext. intros u. unfold distance2, move, x, y, z. cbn [px py pz]. f_equal. ring.
  - destruct (X y (x ^ 2 + z ^ 2)) as (g & A & B); [lra|]. exists g. split; [|exact B]. revert A. apply filter_imp. intros t. apply is_derive_ext. intros u. unfold distance2, move, x, y, z. cbn [px py pz]. f_equal. ring.
  - destruct (X z (x ^ 2 + y ^ 2)) as (g & A & B); [lra|]. exists g. split; [|exact B]. revert A. apply filter_imp. intros t. apply is_derive_ext. intros u. unfold distance2, move, x, y, z. cbn [px py pz]. f_equal. ring.
  - replace (8 * x ^ 2 / d ^ 3 - 2 / d ^ 2 + (8 * y ^ 2 / d ^ 3 - 2 / d ^ 2) + (8 * z ^ 2 / d ^ 3 - 2 / d ^ 2)) with (8 * (x ^ 2 + (y ^ 2 + z ^ 2)) / d ^ 3 - 6 / d ^ 2) by (field; lra).
    rewrite <- E. replace (8 * d / d ^ 3 - 6 / d ^ 2) with (2 / d ^ 2) by (field; lra). apply Rlt_le, Rdiv_lt_0_compat; [lra|apply pow_lt, D].
Qed.
Lemma cont_distance2 c p : cont (fun q => distance2 q c) p.
Proof.
  unfold distance2. apply (cont_plus (fun q => (px q - px c) ^ 2 + (py q - py c) ^ 2) (fun q => (pz q - pz c) ^ 2)); [apply (cont_plus (fun q => (px q - px c) ^ 2) (fun q => (py q - py c) ^ 2))|];
    [apply (cont_pow (fun q => px q - px c))|apply (cont_pow (fun q => py q - py c))|apply (cont_pow (fun q => pz q - pz c))];
    [apply (cont_minus px (fun _ => px c)); [apply cont_px|apply cont_const]|apply (cont_minus py (fun _ => py c)); [apply cont_py|apply cont_const]|apply (cont_minus pz (fun _ => pz c)); [apply cont_pz|apply cont_const]].
Qed.
Lemma ball_close d q p : 0 < d -> distance2 q p < d ^ 2 -> close d q p.
Proof.
  intros D H. unfold distance2 in H. pose proof (pow2_ge_0 (px q - px p)). pose proof (pow2_ge_0 (py q - py p)). pose proof (pow2_ge_0 (pz q - pz p)).
  assert (S : forall x, x ^ 2 < d ^ 2 -> Rabs x < d) by (intros x Hx; rewrite <- (Rabs_pos_eq d) by lra; apply Rsqr_lt_abs_0; rewrite !Rsqr_pow2; exact Hx).
  unfold close. repeat split; apply S; lra.
Qed.
(** ** from the centre of a ball to all of it *)
Lemma reach f C c R p : 0 < R -> (forall q, distance2 q c < R ^ 2 -> 0 < pz q /\ f q <= C /\ cont f q /\ subharmonic f q) ->
  f c < C -> distance2 p c < R ^ 2 -> f p < C.
Proof.
  intros HR B FC Dp. assert (c0 : distance2 c c < R ^ 2) by (unfold distance2; rewrite !Rminus_diag_eq by reflexivity; pose proof (pow_lt R 2 HR); lra).
  set (m := (C - f c) / 2). assert (m0 : 0 < m) by (unfold m; lra).
  destruct (proj1 (proj2 (proj2 (B c c0))) m m0) as (d & d0 & Hd).
  set (rho := Rmin d R / 2). assert (r0 : 0 < rho) by (unfold rho; pose proof (Rmin_glb_lt d R 0 d0 HR); lra).
  assert (rR : 2 * rho <= R) by (unfold rho; pose proof (Rmin_r d R); lra). assert (rd : 2 * rho <= d) by (unfold rho; pose proof (Rmin_l d R); lra).
  assert (NEAR : forall q, distance2 q c < (2 * rho) ^ 2 -> f q <= C - m).
  { intros q Q. assert (K : close d q c). { apply ball_close; [exact d0|]. apply Rlt_le_trans with (1 := Q). apply pow_incr. lra. }
    specialize (Hd q K). apply Rabs_def2 in Hd. unfold m in *. lra. }
  destruct (Rlt_or_le (distance2 p c) ((2 * rho) ^ 2)) as [L|L]; [specialize (NEAR p L); lra|].
  assert (q4 : (2 * rho) ^ 2 = 4 * rho ^ 2) by ring. pose proof (pow_lt rho 2 r0) as rr. pose proof (pow_lt R 2 HR) as RR.
  assert (rl : rho ^ 2 < R ^ 2) by lra. pose proof (Rinv_lt_contravar _ _ (Rmult_lt_0_compat _ _ rr RR) rl) as IL.
  set (A := m / (/ rho ^ 2 - / R ^ 2)). assert (A0 : 0 < A) by (apply Rdiv_lt_0_compat; lra).
  assert (AM : A * / rho ^ 2 = m + A * / R ^ 2) by (unfold A; field; repeat split; try (apply Rgt_not_eq; assumption); lra).
  set (U := fun q => rho ^ 2 < distance2 q c /\ distance2 q c < R ^ 2).
  assert (G : f p + A * / distance2 p c <= C + A * / R ^ 2).
  { apply (region_top (fun q => f q + A * / distance2 q c) U (C + A * / R ^ 2) p).
    - intros q [_ Q]. apply B, Q.
    - intros q [Q1 Q]. destruct (B q Q) as (_ & _ & K & S). split.
      + apply (cont_lin f (fun q => / distance2 q c) A); [exact K|]. apply cont_inv; [apply cont_distance2|lra].
      + apply (subharmonic_lin f (fun q => / distance2 q c) A); [lra|exact S|]. apply inv_subharmonic. lra.
    - intros q [Q1 Q2]. destruct (cont_distance2 c q (Rmin (distance2 q c - rho ^ 2) (R ^ 2 - distance2 q c))) as (e & e0 & He); [apply Rmin_glb_lt; lra|].
      exists e. split; [exact e0|]. intros u Du. specialize (He u (ball_close e u q e0 Du)). cbn beta in He. apply Rabs_def2 in He.
      pose proof (Rmin_l (distance2 q c - rho ^ 2) (R ^ 2 - distance2 q c)). pose proof (Rmin_r (distance2 q c - rho ^ 2) (R ^ 2 - distance2 q c)). unfold U. lra.
    - exists (R + Rabs (px c) + Rabs (py c) + Rabs (pz c)). intros q [_ Q]. destruct (ball_close R q c HR Q) as (a & b & e).
      pose proof (Rabs_pos (px c)). pose proof (Rabs_pos (py c)). pose proof (Rabs_pos (pz c)).
      assert (T : forall x y, Rabs (x - y) < R -> Rabs x <= R + Rabs y) by (intros x y Hxy; replace x with ((x - y) + y) by ring; pose proof (Rabs_triang (x - y) y); lra).
      apply T in a. apply T in b. apply T in e. lra.
    - intros q NQ eps E. destruct (Rlt_or_le (rho ^ 2) (distance2 q c)) as [I|I].
      + assert (O : R ^ 2 <= distance2 q c) by (apply Rnot_lt_le; intros K; apply NQ; split; assumption).
        assert (K : cont (fun u => A * / distance2 u c) q) by (apply cont_scal, cont_inv; [apply cont_distance2|lra]).
        destruct (K eps E) as (e & e0 & He). exists e. split; [exact e0|]. intros u [U1 U2] Du. specialize (He u (ball_close e u q e0 Du)). cbn beta in He. apply Rabs_def2 in He.
        assert (A * / distance2 q c <= A * / R ^ 2) by (apply Rmult_le_compat_l; [lra|apply Rinv_le_contravar; assumption]). destruct (B u U2) as (_ & F & _). lra.
      + destruct (cont_distance2 c q (3 * rho ^ 2)) as (e & e0 & He); [lra|]. exists e. split; [exact e0|]. intros u [U1 U2] Du. specialize (He u (ball_close e u q e0 Du)). cbn beta in He. apply Rabs_def2 in He.
        assert (F : f u <= C - m) by (apply NEAR; lra). assert (A * / distance2 u c <= A * / rho ^ 2) by (apply Rmult_le_compat_l; [lra|left; apply Rinv_lt_contravar; [apply Rmult_lt_0_compat; lra|lra]]). lra.
    - split; lra. }
  assert (A * / R ^ 2 < A * / distance2 p c) by (apply Rmult_lt_compat_l; [exact A0|apply Rinv_lt_contravar; [apply Rmult_lt_0_compat; lra|exact Dp]]). lra.
Qed.
Lemma linked_below f C (U : p3 -> Prop) q p : (forall q, U q -> 0 < pz q /\ f q <= C /\ cont f q /\ subharmonic f q) -> linked U q p -> f q < C -> f p < C.
Proof. intros H K. induction K as [p P|c r p q r0 B P K IH]; intros F; [exact F|]. apply IH. apply (reach f C c r p r0); [intros u Hu; apply H, B, Hu|exact F|exact P]. Qed.

(** ** straight lines *)
Definition along (p q : p3) (t : R) : p3 := P3 (px p + t * (px q - px p)) (py p + t * (py q - py p)) (pz p + t * (pz q - pz p)).
Lemma segment_linked (U : p3 -> Prop) p q r : 0 < r -> (forall t u, 0 <= t <= 1 -> distance2 u (along p q t) < r ^ 2 -> U u) -> linked U p q.
Proof.
  intros r0 H. set (D := distance2 p q). assert (D0 : 0 <= D) by (unfold D, distance2; pose proof (pow2_ge_0 (px p - px q)); pose proof (pow2_ge_0 (py p - py q)); pose proof (pow2_ge_0 (pz p - pz q)); lra).
  destruct (nfloor_ex ((D + 1) / r)) as (n & _ & N); [apply Rlt_le, Rdiv_lt_0_compat; lra|].
  set (s := / (INR n + 1)). pose proof (pos_INR n) as P. assert (s0 : 0 < s) by (apply Rinv_0_lt_compat; lra).
  assert (SD : s ^ 2 * D < r ^ 2).
  { assert (X : D + 1 < r * (INR n + 1)). { apply (Rmult_lt_compat_l r) in N; [|exact r0]. replace (r * ((D + 1) / r)) with (D + 1) in N by (field; lra). exact N. }
    assert (Y : D < (r * (INR n + 1)) ^ 2). { apply Rlt_le_trans with ((D + 1) ^ 2); [nra|apply pow_incr; lra]. }
    apply (Rmult_lt_reg_r ((INR n + 1) ^ 2)); [apply pow_lt; lra|]. replace (s ^ 2 * D * (INR n + 1) ^ 2) with D by (unfold s; field; lra). replace (r ^ 2 * (INR n + 1) ^ 2) with ((r * (INR n + 1)) ^ 2) by ring. exact Y. }
  assert (ST : forall t t', t' = t + s -> distance2 (along p q t') (along p q t) < r ^ 2).
  { intros t t' ->. replace (distance2 (along p q (t + s)) (along p q t)) with (s ^ 2 * D) by (unfold D, distance2, along; cbn [px py pz]; ring). exact SD. }
  assert (ALL : forall k, (k <= n + 1)%nat -> linked U (along p q (1 - INR k * s)) q).
  { assert (I1 : along p q 1 = q) by (destruct q as [x1 x2 x3]; unfold along; cbn [px py pz]; f_equal; ring).
    induction k as [|k IH]; intros K.
    - cbn [INR]. replace (1 - 0 * s) with 1 by ring. rewrite I1. apply linked_here. rewrite <- I1. apply (H 1); [lra|].
      replace (distance2 (along p q 1) (along p q 1)) with 0 by (unfold distance2; ring). apply pow_lt, r0.
    - assert (TK : 0 <= 1 - INR (S k) * s <= 1).
      { assert (INR (S k) * s <= 1). { apply (Rmult_le_reg_r (INR n + 1)); [lra|]. unfold s. rewrite Rmult_assoc, Rinv_l, Rmult_1_r, Rmult_1_l by lra. rewrite <- (S_INR n). apply le_INR. lia. }
        pose proof (Rmult_le_pos _ _ (pos_INR (S k)) (Rlt_le _ _ s0)). lra. }
      apply (linked_step U _ r (along p q (1 - INR k * s))); [exact r0|intros u Hu; apply (H _ u TK Hu)| |apply IH; lia]. apply ST. rewrite S_INR. ring. }
  specialize (ALL (n + 1)%nat (le_n _)). assert (Z : 1 - INR (n + 1) * s = 0) by (rewrite plus_INR; unfold s; cbn [INR]; field; lra). rewrite Z in ALL.
  replace (along p q 0) with p in ALL by (destruct p as [x1 x2 x3]; unfold along; cbn [px py pz]; f_equal; ring). exact ALL.
Qed.
Lemma slab_linked h p q : 0 < pz p < h -> 0 < pz q < h -> linked (fun u => 0 < pz u < h) p q.
Proof.
  intros P Q. set (r := Rmin (Rmin (pz p) (pz q)) (Rmin (h - pz p) (h - pz q))).
  pose proof (Rmin_l (Rmin (pz p) (pz q)) (Rmin (h - pz p) (h - pz q))) as L1. pose proof (Rmin_r (Rmin (pz p) (pz q)) (Rmin (h - pz p) (h - pz q))) as L2. fold r in L1, L2.
  pose proof (Rmin_l (pz p) (pz q)). pose proof (Rmin_r (pz p) (pz q)). pose proof (Rmin_l (h - pz p) (h - pz q)). pose proof (Rmin_r (h - pz p) (h - pz q)).
  assert (r0 : 0 < r) by (repeat apply Rmin_glb_lt; lra). apply (segment_linked _ p q r r0). intros t u T Du. destruct (ball_close r u _ r0 Du) as (_ & _ & c). cbn [along pz] in c. apply Rabs_def2 in c.
  assert (r <= pz p + t * (pz q - pz p) <= h - r) by (split; nra). lra.
Qed.
Lemma above_linked h p q : h < pz p -> h < pz q -> linked (fun u => h < pz u) p q.
Proof.
  intros P Q. set (r := Rmin (pz p - h) (pz q - h)). pose proof (Rmin_l (pz p - h) (pz q - h)) as L1. pose proof (Rmin_r (pz p - h) (pz q - h)) as L2. fold r in L1, L2.
  assert (r0 : 0 < r) by (repeat apply Rmin_glb_lt; lra). apply (segment_linked _ p q r r0). intros t u T Du. destruct (ball_close r u _ r0 Du) as (_ & _ & c). cbn [along pz] in c. apply Rabs_def2 in c.
  assert (h + r <= pz p + t * (pz q - pz p)) by nra. lra.
Qed.

(** ** C187, strict *)
Lemma barrier_strict c s typ (U : p3 -> Prop) C p q : In typ ["tot"; "dc"; "rf"]%string -> (forall q, U q -> 0 < pz q /\ forall e, In e s -> smooth (egeom e) q) ->
  (forall q, U q -> potential_entry c s typ 0 [] q <= C) -> linked U q p -> potential_entry c s typ 0 [] q < C -> potential_entry c s typ 0 [] p < C.
Proof.
  intros T S F. assert (H : exists x y, shares typ x y) by (unfold shares; destruct T as [<-|[<-|[<-|[]]]]; eauto 8). destruct H as (x & y & H).
  apply linked_below. intros u Hu. split; [apply S, Hu|]. split; [apply F, Hu|]. split; [apply (total_cont c s typ x y)|apply (total_subharmonic c s typ x y)]; try exact H; apply S; exact Hu.
Qed.
Lemma height_strict c s parts ce r typ h C : In typ ["tot"; "dc"; "rf"]%string -> tiled_system s parts -> within_disc s parts ce r -> 0 <= r -> 0 < h -> 0 < C ->
  (forall q, pz q = h -> potential_entry c s typ 0 [] q <= C) -> forall p, h < pz p -> potential_entry c s typ 0 [] p < C.
Proof.
  intros HT T W R H C0 B p P. pose proof (tiled_wf s parts T) as WF.
  assert (S : exists x y, shares typ x y) by (unfold shares; destruct HT as [<-|[<-|[<-|[]]]]; eauto 8). destruct S as (x & y & S).
  destruct (far_small s parts ce r c (C / 2) T W R ltac:(lra)) as (D & D0 & FAR). set (q := P3 (fst ce) (snd ce) (D + h)).
  assert (Q : distance ce q = D + h).
  { unfold distance, q. cbn [px py pz]. replace ((fst ce - fst ce) ^ 2 + (snd ce - snd ce) ^ 2 + (D + h) ^ 2) with ((D + h) ^ 2) by ring. apply sqrt_pow2. lra. }
  apply (barrier_strict c s typ (fun u => h < pz u) C p q HT).
  - intros u Hu. split; [lra|]. apply (tiled_smooth s parts u T). lra.
  - intros u Hu. apply (barrier_height c s parts ce r typ h C HT T W R H); [lra|exact B|lra].
  - apply above_linked; [cbn [q pz]; lra|exact P].
  - rewrite (shares_entry c s typ x y 0 [] q WF S ltac:(lia)). destruct (FAR q ltac:(rewrite Q; lra) ltac:(cbn [q pz]; lra)) as [A B']. apply Rabs_def2 in A. destruct S as [(_ & -> & ->)|[(_ & -> & ->)|(_ & -> & ->)]]; lra.
Qed.

(** ** C185 below a cover, strict *)
Lemma tends_cont h f p : 0 < pz p < h -> tends h f p (f p) -> cont f p.
Proof.
  intros P T eps E. destruct (T eps E) as (d & d0 & H). set (d' := Rmin d (Rmin (pz p) (h - pz p))). pose proof (Rmin_l d (Rmin (pz p) (h - pz p))) as L1. pose proof (Rmin_r d (Rmin (pz p) (h - pz p))) as L2.
  fold d' in L1, L2. pose proof (Rmin_l (pz p) (h - pz p)). pose proof (Rmin_r (pz p) (h - pz p)). exists d'. split; [unfold d'; repeat apply Rmin_glb_lt; lra|].
  intros q (a & b & c). apply H; try lra. apply Rabs_def2 in c. lra.
Qed.
Lemma covered_strict h area s parts t u area' s' parts' t' u' p : 0 < h -> covered_system h area s parts -> covered_system h area' s' parts' ->
  potential_under h s parts t u -> potential_under h s' parts' t' u' -> nowhere_above s parts t s' parts' t' -> somewhere_below s parts t s' parts' t' -> 0 < pz p < h ->
  u p + (cover_voltage t' s' - cover_voltage t s) * (pz p / h) < u' p.
Proof.
  intros Hh C C' U V NA (q0 & a & a' & A & A' & L) P. pose proof (fun p => covered_monotone h area s parts t u area' s' parts' t' u' p Hh C C' U V NA) as LE.
  set (D := cover_voltage t' s' - cover_voltage t s) in *. destruct (cover_between h Hh) as (W1 & _).
  destruct U as (U1 & _ & (U3 & U4) & _). destruct V as (V1 & _ & (V3 & V4) & _).
  assert (WT : forall q, tends h (fun r => pz r / h) q (pz q / h)) by (intros q; apply (tends_ext h (fun r => / h * pz r) _ _ (/ h * pz q)); [intros r; unfold Rdiv; ring|unfold Rdiv; ring|apply tends_pz]).
  set (f := fun q => (u q + -1 * u' q) + D * (pz q / h)).
  assert (TA : tends h u (on q0) a) by (destruct A as [(e & Q & He & HQ & J & ->)|[O ->]]; [apply (U3 e Q); assumption|apply U4, O]).
  assert (TA' : tends h u' (on q0) a') by (destruct A' as [(e & Q & He & HQ & J & ->)|[O ->]]; [apply (V3 e Q); assumption|apply V4, O]).
  assert (TF : tends h f (on q0) ((a + -1 * a') + D * (0 / h))) by (apply tends_lin; [apply tends_lin; assumption|exact (WT (on q0))]).
  destruct (TF (a' - a) ltac:(lra)) as (d & d0 & Hd). pose proof (Rmin_glb_lt d h 0 d0 Hh) as M0. pose proof (Rmin_l d h). pose proof (Rmin_r d h).
  set (q := P3 (fst q0) (snd q0) (Rmin d h / 2)).
  assert (FQ : f q < 0).
  { assert (X : Rabs (f q - (a + -1 * a' + D * (0 / h))) < a' - a).
    { apply Hd; unfold q, on; cbn [px py pz]; [lra| | |].
      - rewrite Rminus_diag_eq, Rabs_R0 by reflexivity. exact d0.
      - rewrite Rminus_diag_eq, Rabs_R0 by reflexivity. exact d0.
      - rewrite Rminus_0_r, Rabs_pos_eq; lra. }
    apply Rabs_def2 in X. unfold Rdiv in X at 2. lra. }
  enough (f p < 0) by (unfold f in *; lra).
  apply (linked_below f 0 (fun v => 0 < pz v < h) q p); [|apply slab_linked; [cbn [q pz]; lra|exact P]|exact FQ].
  intros v Hv. split; [lra|]. split; [specialize (LE v Hv); unfold f; lra|]. destruct (U1 v Hv) as [Ha Ta]. destruct (V1 v Hv) as [Ha' Ta']. split.
  - apply (tends_cont h f v Hv). unfold f. apply tends_lin; [apply tends_lin; assumption|apply WT].
  - apply harmonic_sub. unfold f. apply harmonic_lin; [apply harmonic_lin; assumption|apply (W1 v Hv)].
Qed.
