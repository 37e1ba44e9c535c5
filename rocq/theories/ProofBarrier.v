(** Proof of C187: the highest potential of a region is at its surface. *)
From Coquelicot Require Import Coquelicot.
From Verif Require Import Base ModelExpr ModelUtils ModelField ModelGeom ModelSearch SpecTensor SpecField SpecPoly SpecMax SpecTile SpecEarnshaw SpecCover SpecDirichlet SpecMinimum SpecFar SpecBarrier
  ProofField ProofDeriv ProofSys ProofPseudo ProofPoly ProofPoly2 ProofPoly3 ProofEarnshaw ProofCover4 ProofDirichlet ProofDirichlet2 ProofCentre ProofMin ProofMin2 ProofMin3 ProofMin4 ProofCompare ProofFar ProofFar2.
Import ListNotations.
Open Scope R_scope.
Notation length := List.length.

Lemma atan_up a b eps : 0 <= eps -> b <= a + eps -> atan b <= atan a + eps.
Proof.
  intros E H. destruct (Rle_or_lt b a) as [L|L].
  - destruct L as [L| ->]; [|lra]. pose proof (atan_increasing b a L). lra.
  - destruct (MVT_cor2 atan (fun x => / (1 + x ^ 2)) a b L) as (c & D & _).
    { intros c _. exact (derivable_pt_lim_atan c). }
    assert (B : / (1 + c ^ 2) <= 1). { rewrite <- Rinv_1 at 2. apply Rinv_le_contravar; [lra|]. pose proof (pow2_ge_0 c). lra. }
    assert (/ (1 + c ^ 2) * (b - a) <= 1 * (b - a)) by (apply Rmult_le_compat_r; lra). lra.
Qed.
Lemma atan_le_inv a b : atan a <= atan b -> a <= b.
Proof. intros H. apply Rnot_lt_le. intros L. pose proof (atan_increasing b a L). lra. Qed.
Lemma close_ball d q p : 0 < d -> close (d / 2) q p -> distance2 q p < d ^ 2.
Proof.
  intros D (a & b & c). assert (S : forall x, Rabs x < d / 2 -> x ^ 2 < (d / 2) ^ 2).
  { intros x Hx. rewrite <- (pow2_abs x). pose proof (Rabs_pos x). assert ((d / 2) ^ 2 - Rabs x ^ 2 = (d / 2 - Rabs x) * (d / 2 + Rabs x)) by ring. assert (0 < (d / 2 - Rabs x) * (d / 2 + Rabs x)) by (apply Rmult_lt_0_compat; lra). lra. }
  apply S in a. apply S in b. apply S in c. unfold distance2. assert ((d / 2) ^ 2 = d ^ 2 / 4) by field. pose proof (pow_lt d 2 D). lra.
Qed.
(** ** bounded regions above the plane *)
Lemma region_top (f : p3 -> R) (U : p3 -> Prop) C p : (forall q, U q -> 0 < pz q) -> (forall q, U q -> cont f q /\ subharmonic f q) -> open_region U -> bounded_region U -> surface_below f U C ->
  U p -> f p <= C.
Proof.
  intros UP FF OP (r & UB) SB Hp. set (o := P3 0 0 0).
  assert (BX : forall q, U q -> in_box r r q).
  { intros q Q. destruct (UB q Q) as (a & b & c). specialize (UP q Q). apply Rabs_le_between in a, b, c. unfold in_box. lra. }
  assert (DB : forall q, in_box r r q -> 0 <= distance2 q o <= 3 * r ^ 2).
  { intros q (a & b & c). unfold distance2, o. cbn [px py pz]. rewrite !Rminus_0_r.
    assert (SQ : forall x, - r <= x <= r -> 0 <= x ^ 2 <= r ^ 2) by (intros x Hx; split; [apply pow2_ge_0|rewrite <- !Rsqr_pow2; apply neg_pos_Rsqr_le; lra]).
    pose proof (SQ _ a). pose proof (SQ _ b). pose proof (SQ (pz q) ltac:(lra)). lra. }
  assert (E0 : forall e, 0 < e -> f p <= C + e * (3 * r ^ 2)).
  { intros e He. set (top := C + e * (3 * r ^ 2)).
    set (v := fun q => if ClassicalDedekindReals.sig_not_dec (U q) then atan (f q + e * distance2 q o) else atan top).
    assert (VI : forall q, U q -> v q = atan (f q + e * distance2 q o)) by (intros q Q; unfold v; destruct (ClassicalDedekindReals.sig_not_dec (U q)); [reflexivity|contradiction]).
    assert (VO : forall q, ~ U q -> v q = atan top) by (intros q Q; unfold v; destruct (ClassicalDedekindReals.sig_not_dec (U q)); [contradiction|reflexivity]).
    assert (CW : forall q, U q -> cont (fun u => f u + e * distance2 u o) q).
    { intros q Q. apply (cont_plus f (fun u => e * distance2 u o)); [apply FF, Q|]. apply cont_scal. unfold distance2, o. cbn [px py pz].
      apply (cont_plus (fun u => (px u - 0) ^ 2 + (py u - 0) ^ 2) (fun u => (pz u - 0) ^ 2)); [apply (cont_plus (fun u => (px u - 0) ^ 2) (fun u => (py u - 0) ^ 2))|];
        [apply (cont_pow (fun u => px u - 0))|apply (cont_pow (fun u => py u - 0))|apply (cont_pow (fun u => pz u - 0))];
        [apply (cont_minus px (fun _ => 0)); [apply cont_px|apply cont_const]|apply (cont_minus py (fun _ => 0)); [apply cont_py|apply cont_const]|apply (cont_minus pz (fun _ => 0)); [apply cont_pz|apply cont_const]]. }
    assert (M : v p <= atan top).
    { apply (box_max v r r (atan top) (PI / 2)).
      - intros q eps Q E. destruct (Classical_Prop.classic (U q)) as [I|I].
        + destruct (OP q I) as (d1 & D1 & H1). destruct (CW q I eps E) as (d2 & D2 & H2). exists (Rmin (d1 / 2) d2). split; [apply Rmin_glb_lt; lra|].
          intros u _ (c1 & c2 & c3). pose proof (Rmin_l (d1 / 2) d2). pose proof (Rmin_r (d1 / 2) d2).
          assert (Iu : U u) by (apply H1, close_ball; [exact D1|]; unfold close; lra).
          rewrite (VI u Iu), (VI q I). apply atan_up; [lra|]. specialize (H2 u ltac:(unfold close; lra)). cbn beta in H2. apply Rabs_def2 in H2. lra.
        + destruct (SB q I eps E) as (d & D & H). exists (d / 2). split; [lra|]. intros u Bu Cu. rewrite (VO q I).
          destruct (Classical_Prop.classic (U u)) as [Iu|Iu]; [|rewrite (VO u Iu); lra]. rewrite (VI u Iu). apply atan_up; [lra|].
          specialize (H u Iu (close_ball d u q D Cu)). pose proof (DB u Bu). assert (e * distance2 u o <= e * (3 * r ^ 2)) by (apply Rmult_le_compat_l; lra). unfold top. lra.
      - intros q _. unfold v. destruct (ClassicalDedekindReals.sig_not_dec (U q)); left; apply Ratan.atan_bound.
      - intros q Q. destruct (Classical_Prop.classic (U q)) as [I|I]; [|left; rewrite (VO q I); lra]. right. destruct (OP q I) as (d & D & H).
        apply Classical_Prop.NNPP. intros N. apply (no_top f q o e (d / 2) (proj2 (FF q I)) He ltac:(lra)). intros u Cu.
        assert (Iu : U u) by (apply H, close_ball; assumption). apply Rnot_lt_le. intros L. apply N. exists u. split; [apply BX, Iu|]. rewrite (VI u Iu), (VI q I). apply atan_increasing, L.
      - apply BX, Hp. }
    rewrite (VI p Hp) in M. apply atan_le_inv in M. pose proof (DB p (BX p Hp)). assert (0 <= e * distance2 p o) by (apply Rmult_le_pos; lra). unfold top in *. lra. }
  apply Rnot_lt_le. intros L. set (e := (f p - C) / (2 * (3 * r ^ 2 + 1))). pose proof (pow2_ge_0 r). assert (e0 : 0 < e) by (apply Rdiv_lt_0_compat; lra).
  specialize (E0 e e0). assert (EQ : e * (3 * r ^ 2) + e = (f p - C) / 2) by (unfold e; field; lra). lra.
Qed.
Lemma barrier c s typ (U : p3 -> Prop) C p : In typ ["tot"; "dc"; "rf"]%string -> (forall q, U q -> 0 < pz q /\ forall e, In e s -> smooth (egeom e) q) ->
  open_region U -> bounded_region U -> surface_below (potential_entry c s typ 0 []) U C -> U p -> potential_entry c s typ 0 [] p <= C.
Proof.
  intros T S. assert (H : exists x y, shares typ x y) by (unfold shares; destruct T as [<-|[<-|[<-|[]]]]; eauto 8). destruct H as (x & y & H).
  apply region_top; [apply S|]. intros q Q. split; [apply (total_cont c s typ x y)|apply (total_subharmonic c s typ x y)]; try exact H; apply S; exact Q.
Qed.
Lemma static_range s k (U : p3 -> Prop) m M p : (forall q, U q -> 0 < pz q /\ forall e, In e s -> smooth (egeom e) q) -> open_region U -> bounded_region U ->
  let f := fun q => tensor_entry s TDc 0 [] q + k * tensor_entry s TRf 0 [] q in
  surface_below f U M -> surface_below (fun q => - f q) U (- m) -> U p -> m <= f p <= M.
Proof.
  intros S O B f A1 A2 Hp.
  assert (SH : forall g q, harmonic_at g q -> subharmonic g q) by (intros g q (a & b & c & A & B' & C & Z); exists a, b, c; repeat split; auto; lra).
  assert (HF : forall q, U q -> harmonic_at f q) by (intros q Q; apply harmonic_lin; apply smooth_harmonic; try (apply S; exact Q); try lia; exact idx0).
  assert (CF : forall q, U q -> cont f q) by (intros q Q; apply cont_lin; apply cont_tensor; try (apply S; exact Q); try lia; exact idx0).
  split.
  - assert (X : 0 + -1 * f p <= - m); [|lra]. apply (region_top (fun q => 0 + -1 * f q) U (- m) p); [apply S| |exact O|exact B| |exact Hp].
    + intros q Q. split; [apply (cont_lin (fun _ => 0) f (-1)); [apply cont_const|apply CF, Q]|apply SH, harmonic_opp, HF, Q].
    + intros q Q eps E. destruct (A2 q Q eps E) as (d & D & H). exists d. split; [exact D|]. intros u Iu Du. specialize (H u Iu Du). cbn beta in H. lra.
  - apply (region_top f U M p); [apply S| |exact O|exact B|exact A1|exact Hp]. intros q Q. split; [apply CF, Q|apply SH, HF, Q].
Qed.
(** ** regions that reach to infinity *)
Lemma far_small s parts c r k eps : tiled_system s parts -> within_disc s parts c r -> 0 <= r -> 0 < eps ->
  exists D, 0 < D /\ forall p, D <= distance c p -> 0 < pz p -> Rabs (tensor_entry s TDc 0 [] p) < eps /\ 0 <= pseudo_entry k s 0 [] p < eps.
Proof.
  intros T W R E. pose proof PI_RGT_0 as PP. pose proof (magnitude_pos s parts TDc T) as M1. set (a := magnitude TDc s / PI). set (b := k ^ 2 * (12 * magnitude TRf s ^ 2 / PI ^ 2)).
  assert (a0 : 0 <= a) by (apply Rmult_le_pos; [exact M1|left; apply Rinv_0_lt_compat; lra]).
  assert (b0 : 0 <= b). { apply Rmult_le_pos; [apply pow2_ge_0|]. apply Rmult_le_pos; [pose proof (pow2_ge_0 (magnitude TRf s)); lra|left; apply Rinv_0_lt_compat, pow_lt; lra]. }
  assert (q0 : 0 <= (a + b) / eps) by (apply Rmult_le_pos; [lra|left; apply Rinv_0_lt_compat; lra]).
  exists (2 * r + 1 + (a + b) / eps). split; [lra|]. intros p D Z.
  assert (L : 0 <= r < distance c p) by lra. set (m := distance c p - r). assert (m1 : 1 + (a + b) / eps <= m) by (unfold m; lra). assert (m2 : r <= m) by (unfold m; lra).
  assert (AB : (a + b) / m < eps).
  { apply (Rmult_lt_reg_r m); [lra|]. unfold Rdiv at 1. rewrite Rmult_assoc, Rinv_l by lra. rewrite Rmult_1_r.
    assert (X : eps * (1 + (a + b) / eps) <= eps * m) by (apply Rmult_le_compat_l; lra). replace (eps * (1 + (a + b) / eps)) with (eps + (a + b)) in X by (field; lra). lra. }
  assert (IM : 0 < / m <= 1). { split; [apply Rinv_0_lt_compat; lra|]. rewrite <- Rinv_1. apply Rinv_le_contravar; lra. }
  assert (am : 0 <= a / m) by (apply Rmult_le_pos; lra). assert (bm : 0 <= b / m) by (apply Rmult_le_pos; lra). replace ((a + b) / m) with (a / m + b / m) in AB by (field; lra).
  split.
  - destruct (far s parts TDc c r p T W L Z) as (v & EV & B & _). pose proof (entry_result s parts TDc p T Z) as E1. rewrite EV in E1. injection E1 as E1. rewrite <- E1.
    apply Rle_lt_trans with (1 := B). fold m.
    assert (ZD : pz p <= 2 * m).
    { apply Rle_trans with (distance c p); [|unfold m in *; lra]. unfold distance. rewrite <- (sqrt_pow2 (pz p)) at 1 by lra. apply sqrt_le_1_alt. pose proof (pow2_ge_0 (px p - fst c)). pose proof (pow2_ge_0 (py p - snd c)). lra. }
    apply Rle_lt_trans with (a / m); [|lra]. unfold a. replace (magnitude TDc s / PI / m) with (magnitude TDc s * (/ (PI * m))) by (field; lra). apply Rmult_le_compat_l; [exact M1|].
    apply Rle_trans with (2 * m / (2 * PI * m ^ 3)).
    + apply Rmult_le_compat_r; [left; apply Rinv_0_lt_compat; apply Rmult_lt_0_compat; [lra|apply pow_lt; lra]|exact ZD].
    + replace (2 * m / (2 * PI * m ^ 3)) with (/ (PI * m) * / m) by (field; lra). rewrite <- (Rmult_1_r (/ (PI * m))) at 2. apply Rmult_le_compat_l; [left; apply Rinv_0_lt_compat, Rmult_lt_0_compat; lra|lra].
  - destruct (far_pseudo s parts c r p k T W L Z) as (P & EP & B). assert (EE : P [] = pseudo_entry k s 0 [] p) by (unfold pseudo_entry; rewrite EP; reflexivity). rewrite <- EE. split; [lra|].
    apply Rle_lt_trans with (1 := proj2 B). fold m. apply Rle_lt_trans with (b / m); [|lra]. unfold b.
    replace (k ^ 2 * (12 * magnitude TRf s ^ 2 / (PI ^ 2 * m ^ 6))) with (k ^ 2 * (12 * magnitude TRf s ^ 2 / PI ^ 2) * (/ m * (/ m) ^ 5)) by (field; lra).
    fold b. unfold Rdiv at 1. apply Rmult_le_compat_l; [exact b0|]. apply Rle_trans with (/ m * 1); [|lra]. apply Rmult_le_compat_l; [lra|]. rewrite <- (pow1 5). apply pow_incr; lra.
Qed.
Lemma distance_near c p q : Rabs (distance c q - distance c p) <= sqrt (distance2 q p).
Proof.
  set (h := sqrt (distance2 q p)). assert (h0 : 0 <= h) by apply sqrt_pos.
  assert (HH : h ^ 2 = distance2 q p). { unfold h. rewrite <- Rsqr_pow2. apply Rsqr_sqrt. unfold distance2. pose proof (pow2_ge_0 (px q - px p)). pose proof (pow2_ge_0 (py q - py p)). pose proof (pow2_ge_0 (pz q - pz p)). lra. }
  unfold distance. set (x := px p - fst c). set (y := py p - snd c). set (z := pz p). set (x' := px q - fst c). set (y' := py q - snd c). set (z' := pz q).
  assert (D : distance2 q p = (x' - x) ^ 2 + (y' - y) ^ 2 + (z' - z) ^ 2) by (unfold distance2, x, y, z, x', y', z'; ring). rewrite D in HH. clearbody x y z x' y' z'.
  set (b := sqrt (x ^ 2 + y ^ 2 + z ^ 2)). set (a := sqrt (x' ^ 2 + y' ^ 2 + z' ^ 2)).
  pose proof (length_sq x y z) as Eb. fold b in Eb. pose proof (length_sq x' y' z') as Ea. fold a in Ea. assert (0 <= a) by apply sqrt_pos. assert (0 <= b) by apply sqrt_pos.
  assert (X : Rabs (x * x' + y * y' + z * z') <= a * b).
  { rewrite <- (Rabs_pos_eq (a * b)) by (apply Rmult_le_pos; lra). apply Rsqr_le_abs_0. unfold Rsqr.
    replace (a * b * (a * b)) with (a ^ 2 * b ^ 2) by ring. rewrite Ea, Eb. pose proof (pow2_ge_0 (x * y' - y * x')). pose proof (pow2_ge_0 (x * z' - z * x')). pose proof (pow2_ge_0 (y * z' - z * y')).
    replace ((x' ^ 2 + y' ^ 2 + z' ^ 2) * (x ^ 2 + y ^ 2 + z ^ 2)) with ((x * x' + y * y' + z * z') * (x * x' + y * y' + z * z') + (x * y' - y * x') ^ 2 + (x * z' - z * x') ^ 2 + (y * z' - z * y') ^ 2) by ring. lra. }
  pose proof (Rle_abs (x * x' + y * y' + z * z')) as Y. rewrite <- (Rabs_pos_eq h) by exact h0. apply Rsqr_le_abs_0. rewrite !Rsqr_pow2, HH.
  replace ((a - b) ^ 2) with (a ^ 2 + b ^ 2 - 2 * (a * b)) by ring. rewrite Ea, Eb.
  replace ((x' - x) ^ 2 + (y' - y) ^ 2 + (z' - z) ^ 2) with (x' ^ 2 + y' ^ 2 + z' ^ 2 + (x ^ 2 + y ^ 2 + z ^ 2) - 2 * (x * x' + y * y' + z * z')) by ring. lra.
Qed.
Lemma ball_distance c p q d : 0 < d -> distance2 q p < d ^ 2 -> Rabs (distance c q - distance c p) < d.
Proof.
  intros D H. apply Rle_lt_trans with (1 := distance_near c p q). rewrite <- (sqrt_pow2 d) by lra. apply sqrt_lt_1_alt. split; [|exact H].
  unfold distance2. pose proof (pow2_ge_0 (px q - px p)). pose proof (pow2_ge_0 (py q - py p)). pose proof (pow2_ge_0 (pz q - pz p)). lra.
Qed.
Lemma tiled_smooth s parts q : tiled_system s parts -> 0 < pz q -> forall e, In e s -> smooth (egeom e) q.
Proof.
  intros T Z e He. destruct (proj1 T e He) as (paths & h & -> & (N & _)). cbn [smooth]. split; [exact N|].
  cbn [off_electrode]. intros k K. change (images 0) with [0%Z] in K. destruct K as [<-|[]]. rewrite image0. lra.
Qed.
Lemma barrier_all c s parts ce r typ (U : p3 -> Prop) C p : In typ ["tot"; "dc"; "rf"]%string -> tiled_system s parts -> within_disc s parts ce r -> 0 <= r -> (forall q, U q -> 0 < pz q) ->
  open_region U -> 0 <= C -> surface_below (potential_entry c s typ 0 []) U C -> U p -> potential_entry c s typ 0 [] p <= C.
Proof.
  intros HT T W R UP O C0 SB Hp. pose proof (tiled_wf s parts T) as WF.
  assert (H : exists x y, shares typ x y) by (unfold shares; destruct HT as [<-|[<-|[<-|[]]]]; eauto 8). destruct H as (x & y & H).
  apply Rnot_lt_le. intros L. set (eps := (potential_entry c s typ 0 [] p - C) / 2). assert (E : 0 < eps) by (unfold eps; lra).
  destruct (far_small s parts ce r c (eps / 2) T W R ltac:(lra)) as (D & D0 & FAR).
  assert (FE : forall q, D <= distance ce q -> 0 < pz q -> potential_entry c s typ 0 [] q < eps).
  { intros q Dq Zq. rewrite (shares_entry c s typ x y 0 [] q WF H ltac:(lia)). destruct (FAR q Dq Zq) as [A B]. apply Rabs_def2 in A. destruct H as [(_ & -> & ->)|[(_ & -> & ->)|(_ & -> & ->)]]; lra. }
  set (D' := Rmax D (distance ce p) + 1). pose proof (Rmax_l D (distance ce p)) as R1. pose proof (Rmax_r D (distance ce p)) as R2.
  set (U' := fun q => U q /\ distance ce q < D').
  assert (X : potential_entry c s typ 0 [] p <= C + eps); [|unfold eps in X; lra].
  apply (barrier c s typ U' (C + eps) p HT).
  - intros q [Q _]. split; [apply UP, Q|apply (tiled_smooth s parts q T), UP, Q].
  - intros q [Q Dq]. destruct (O q Q) as (d & d0 & Hd). exists (Rmin d (D' - distance ce q)). assert (M0 : 0 < Rmin d (D' - distance ce q)) by (apply Rmin_glb_lt; lra).
    split; [exact M0|]. intros u Du. split.
    + apply Hd. apply Rlt_le_trans with (1 := Du). apply pow_incr. split; [lra|apply Rmin_l].
    + pose proof (ball_distance ce q u _ M0 Du) as B. apply Rabs_def2 in B. pose proof (Rmin_r d (D' - distance ce q)). lra.
  - exists (D' + Rabs (fst ce) + Rabs (snd ce)). intros q [Q Dq].
    assert (SQ : forall a b, 0 <= b -> Rabs a <= sqrt (a ^ 2 + b)). { intros a b Hb. rewrite <- sqrt_Rsqr_abs. apply sqrt_le_1_alt. unfold Rsqr. replace (a ^ 2) with (a * a) by ring. lra. }
    unfold distance in Dq. pose proof (pow2_ge_0 (px q - fst ce)). pose proof (pow2_ge_0 (py q - snd ce)). pose proof (pow2_ge_0 (pz q)).
    assert (A1 := SQ (px q - fst ce) ((py q - snd ce) ^ 2 + pz q ^ 2) ltac:(lra)). assert (A2 := SQ (py q - snd ce) ((px q - fst ce) ^ 2 + pz q ^ 2) ltac:(lra)). assert (A3 := SQ (pz q) ((px q - fst ce) ^ 2 + (py q - snd ce) ^ 2) ltac:(lra)).
    replace ((px q - fst ce) ^ 2 + ((py q - snd ce) ^ 2 + pz q ^ 2)) with ((px q - fst ce) ^ 2 + (py q - snd ce) ^ 2 + pz q ^ 2) in A1 by ring.
    replace ((py q - snd ce) ^ 2 + ((px q - fst ce) ^ 2 + pz q ^ 2)) with ((px q - fst ce) ^ 2 + (py q - snd ce) ^ 2 + pz q ^ 2) in A2 by ring.
    replace (pz q ^ 2 + ((px q - fst ce) ^ 2 + (py q - snd ce) ^ 2)) with ((px q - fst ce) ^ 2 + (py q - snd ce) ^ 2 + pz q ^ 2) in A3 by ring.
    pose proof (Rabs_pos (fst ce)). pose proof (Rabs_pos (snd ce)).
    pose proof (Rabs_triang (px q - fst ce) (fst ce)) as T1. pose proof (Rabs_triang (py q - snd ce) (snd ce)) as T2. replace (px q - fst ce + fst ce) with (px q) in T1 by ring. replace (py q - snd ce + snd ce) with (py q) in T2 by ring. lra.
  - intros q NQ e He. destruct (Classical_Prop.classic (U q)) as [Q|Q].
    + assert (Dq : D' <= distance ce q) by (apply Rnot_lt_le; intros X; apply NQ; split; assumption). exists 1. split; [lra|]. intros u [Iu _] Du.
      pose proof (ball_distance ce q u 1 ltac:(lra) Du) as B. apply Rabs_def2 in B. pose proof (FE u ltac:(unfold D' in Dq; lra) (UP u Iu)). lra.
    + destruct (SB q Q e He) as (d & d0 & Hd). exists d. split; [exact d0|]. intros u [Iu _] Du. specialize (Hd u Iu Du). lra.
  - split; [exact Hp|]. unfold D'. lra.
Qed.
Lemma barrier_height c s parts ce r typ h C : In typ ["tot"; "dc"; "rf"]%string -> tiled_system s parts -> within_disc s parts ce r -> 0 <= r -> 0 < h -> 0 <= C ->
  (forall q, pz q = h -> potential_entry c s typ 0 [] q <= C) -> forall p, h <= pz p -> potential_entry c s typ 0 [] p <= C.
Proof.
  intros HT T W R H0 C0 B p Hp. destruct Hp as [Hp|Hp]; [|apply B; symmetry; exact Hp].
  assert (H : exists x y, shares typ x y) by (unfold shares; destruct HT as [<-|[<-|[<-|[]]]]; eauto 8). destruct H as (x & y & H).
  assert (CT : forall q, 0 < pz q -> cont (potential_entry c s typ 0 []) q) by (intros q Q; apply (total_cont c s typ x y); [apply (tiled_smooth s parts q T Q)|exact H]).
  apply (barrier_all c s parts ce r typ (fun q => h < pz q) C p HT T W R); [intros q Q; lra| |exact C0| |exact Hp].
  - intros q Q. exists (pz q - h). split; [lra|]. intros u D. assert (X : Rabs (pz u - pz q) < pz q - h).
    { rewrite <- (Rabs_pos_eq (pz q - h)) by lra. apply Rsqr_lt_abs_0. rewrite !Rsqr_pow2. unfold distance2 in D. pose proof (pow2_ge_0 (px u - px q)). pose proof (pow2_ge_0 (py u - py q)). lra. }
    apply Rabs_def2 in X. lra.
  - intros q Q eps E. assert (NR : forall d u, 0 < d -> distance2 u q < d ^ 2 -> close d u q).
    { intros d u d0 D. unfold distance2 in D. pose proof (pow2_ge_0 (px u - px q)). pose proof (pow2_ge_0 (py u - py q)). pose proof (pow2_ge_0 (pz u - pz q)).
      assert (S : forall a, a ^ 2 < d ^ 2 -> Rabs a < d) by (intros a Ha; rewrite <- (Rabs_pos_eq d) by lra; apply Rsqr_lt_abs_0; rewrite !Rsqr_pow2; exact Ha). unfold close. repeat split; apply S; lra. }
    destruct (Rlt_or_le (pz q) h) as [L|L].
    + exists (h - pz q). split; [lra|]. intros u Hu D. cbn beta in Hu. destruct (NR (h - pz q) u ltac:(lra) D) as (_ & _ & X). apply Rabs_def2 in X. lra.
    + cbn beta in Q. assert (EQ : pz q = h) by (apply Rnot_lt_le in Q; lra). destruct (CT q ltac:(lra) eps E) as (d & d0 & X). exists d. split; [exact d0|]. intros u _ D. specialize (X u (NR d u d0 D)). apply Rabs_def2 in X. specialize (B q EQ). lra.
Qed.
