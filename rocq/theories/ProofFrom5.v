(** shear_from_matrix undoes shear_matrix. *)
From Coq Require Import Lra Nsatz.
From Verif Require Import Base SpecTensor ModelTrans ModelFrom SpecTrans SpecFrom ProofTrans ProofRigid ProofEuler ProofFrom ProofFrom2 ProofFrom3 ProofFrom4.
Open Scope R_scope.
Notation length := List.length.

Lemma shear_ok angle d p n : inner 3 n n <> 0 -> inner 3 d n = 0 -> exists m, shear_matrix angle d p n = Ok m /\ affine m /\
  (forall i j, (i < 3)%nat -> (j < 3)%nat -> m i j = identity4 i j + tan angle * (unit3 d i * unit3 n j)) /\
  (forall i, (i < 3)%nat -> m i 3%nat = - (tan angle * inner 3 p (unit3 n) * unit3 d i)).
Proof.
  intros Hn Hd. unfold shear_matrix.
  assert (Z : dot3 (unit3 n) (unit3 d) = 0).
  { rewrite inner3_dot in Hd. unfold unit3, dot3 in *. unfold Rdiv. set (x := / sqrt _). set (y := / sqrt _).
    transitivity (x * y * (d 0%nat * n 0%nat + d 1%nat * n 1%nat + d 2%nat * n 2%nat)); [ring|]. rewrite Hd. ring. }
  rewrite Z, Rabs_R0. destruct (Rlt_dec (/ 10 ^ 6) 0) as [H|_].
  { exfalso. assert (0 < / 10 ^ 6) by (apply Rinv_0_lt_compat, pow_lt; lra). lra. }
  eexists. split; [reflexivity|]. split; [|split].
  - split; [intros k Hk; c3 k|]; reflexivity.
  - intros i j Hi Hj. unfold outer. c3 i; c3 j; unfold setcol, set33; cbn -[unit3]; ring.
  - intros i Hi. rewrite inner3_dot. c3 i; unfold setcol, set33; cbn -[unit3 dot3]; ring.
Qed.
(** the vector product of two vectors across [n] is along [n] *)
Lemma cross_along n a b : inner 3 n n = 1 -> inner 3 n a = 0 -> inner 3 n b = 0 -> 
  forall k, (k < 3)%nat -> cross a b k = inner 3 n (cross a b) * n k.
Proof.
  intros Hn Ha Hb. enough (G : cross a b 0%nat = inner 3 n (cross a b) * n 0%nat /\ cross a b 1%nat = inner 3 n (cross a b) * n 1%nat /\
    cross a b 2%nat = inner 3 n (cross a b) * n 2%nat) by (destruct G as (G0 & G1 & G2); intros k Hk; c3 k; assumption).
  unfold inner, cross in *. cbn [vsum vec3] in *.
  set (n0 := n 0%nat) in *. set (n1 := n 1%nat) in *. set (n2 := n 2%nat) in *. set (a0 := a 0%nat) in *. set (a1 := a 1%nat) in *. set (a2 := a 2%nat) in *.
  set (b0 := b 0%nat) in *. set (b1 := b 1%nat) in *. set (b2 := b 2%nat) in *. clearbody n0 n1 n2 a0 a1 a2 b0 b1 b2.
  assert (Ha' : n0 * a0 + n1 * a1 + n2 * a2 = 0) by lra. assert (Hb' : n0 * b0 + n1 * b1 + n2 * b2 = 0) by lra.
  (* n x (a x b) = a (n.b) - b (n.a) = 0 *)
  set (c0 := a1 * b2 - a2 * b1). set (c1 := a2 * b0 - a0 * b2). set (c2 := a0 * b1 - a1 * b0).
  assert (X0 : n1 * c2 - n2 * c1 = 0).
  { transitivity (a0 * (n0 * b0 + n1 * b1 + n2 * b2) - b0 * (n0 * a0 + n1 * a1 + n2 * a2)); [unfold c1, c2; ring|]. rewrite Ha', Hb'. ring. }
  assert (X1 : n2 * c0 - n0 * c2 = 0).
  { transitivity (a1 * (n0 * b0 + n1 * b1 + n2 * b2) - b1 * (n0 * a0 + n1 * a1 + n2 * a2)); [unfold c0, c2; ring|]. rewrite Ha', Hb'. ring. }
  assert (X2 : n0 * c1 - n1 * c0 = 0).
  { transitivity (a2 * (n0 * b0 + n1 * b1 + n2 * b2) - b2 * (n0 * a0 + n1 * a1 + n2 * a2)); [unfold c0, c1; ring|]. rewrite Ha', Hb'. ring. }
  assert (N : n0 * n0 + n1 * n1 + n2 * n2 = 1) by lra.
  fold c0 c1 c2. split; [|split].
  - transitivity (c0 * (n0 * n0 + n1 * n1 + n2 * n2)); [rewrite N; ring|].
    transitivity ((0 + n0 * c0 + n1 * c1 + n2 * c2) * n0 - n1 * (n0 * c1 - n1 * c0) + n2 * (n2 * c0 - n0 * c2)); [ring|]. rewrite X1, X2. ring.
  - transitivity (c1 * (n0 * n0 + n1 * n1 + n2 * n2)); [rewrite N; ring|].
    transitivity ((0 + n0 * c0 + n1 * c1 + n2 * c2) * n1 + n0 * (n0 * c1 - n1 * c0) - n2 * (n1 * c2 - n2 * c1)); [ring|]. rewrite X0, X2. ring.
  - transitivity (c2 * (n0 * n0 + n1 * n1 + n2 * n2)); [rewrite N; ring|].
    transitivity ((0 + n0 * c0 + n1 * c1 + n2 * c2) * n2 + n1 * (n1 * c2 - n2 * c1) - n0 * (n2 * c0 - n0 * c2)); [ring|]. rewrite X0, X1. ring.
Qed.
Lemma norm3_nonneg v : 0 <= norm3 v.
Proof. unfold norm3. apply sqrt_pos. Qed.
Lemma norm3_mult n c v : inner 3 n n = 1 -> (forall k, (k < 3)%nat -> v k = c * n k) -> norm3 v = Rabs c.
Proof.
  intros Hn Hv. unfold norm3. rewrite <- sqrt_Rsqr_abs. f_equal. unfold Rsqr, dot3. rewrite !Hv by lia. unfold inner in Hn. cbn [vsum] in Hn.
  transitivity (c * c * (0 + n 0%nat * n 0%nat + n 1%nat * n 1%nat + n 2%nat * n 2%nat)); [ring|]. rewrite Hn. ring.
Qed.

(** the loop of shear_from_matrix: the longest of the three products *)
Definition longest (a b c : vec) : R * vec :=
  let upd (acc : R * vec) (n : vec) := if Rlt_dec (fst acc) (norm3 n) then (norm3 n, n) else acc in
  upd (upd (upd (- 1, fun _ => 0) (cross a b)) (cross a c)) (cross b c).
Lemma longest_spec a b c n : inner 3 n n = 1 -> inner 3 n a = 0 -> inner 3 n b = 0 -> inner 3 n c = 0 ->
  exists g, (forall k, (k < 3)%nat -> snd (longest a b c) k = g * n k) /\ fst (longest a b c) = Rabs g /\
  norm3 (cross a b) <= Rabs g /\ norm3 (cross a c) <= Rabs g /\ norm3 (cross b c) <= Rabs g.
Proof.
  intros Hn Ha Hb Hc. unfold longest. cbn [fst].
  pose proof (cross_along n a b Hn Ha Hb) as X1. pose proof (cross_along n a c Hn Ha Hc) as X2. pose proof (cross_along n b c Hn Hb Hc) as X3.
  pose proof (norm3_mult n _ _ Hn X1) as Y1. pose proof (norm3_mult n _ _ Hn X2) as Y2. pose proof (norm3_mult n _ _ Hn X3) as Y3.
  pose proof (norm3_nonneg (cross a b)) as P1. pose proof (norm3_nonneg (cross a c)) as P2. pose proof (norm3_nonneg (cross b c)) as P3.
  destruct (Rlt_dec (-1) (norm3 (cross a b))) as [_|H]; [|lra]. cbn [fst].
  destruct (Rlt_dec (norm3 (cross a b)) (norm3 (cross a c))) as [L1|L1]; cbn [fst];
  match goal with |- context [Rlt_dec ?x ?y] => destruct (Rlt_dec x y) as [L2|L2] end; cbn [fst snd];
  eexists; (split; [eassumption|]); split; [exact Y3| |exact Y2| |exact Y3| |exact Y1|];
  rewrite <- ?Y1, <- ?Y2, <- ?Y3; repeat split; lra.
Qed.
Lemma shear_unfold e m p0 p1 p2 : near 1 tol4 (eig3 e m) = [p0; p1; p2] -> shear_from_matrix e m =
  let '(lenorm, normal) := longest (vr p0) (vr p1) (vr p2) in
    let shear :=
      if Req_EM_T lenorm 0 then None
      else
        let normal := fun k => normal k / lenorm in
        let direction := fun i => dot3 (fun j => m i j - identity4 i j) normal in
        let angle := norm3 direction in
        if Req_EM_T angle 0 then None
        else Some (atan angle, (fun k => direction k / angle), normal) in
    match final (near 1 tol8 (eig4 e m)) with
    | None => Raise ValueError
    | Some point => Ok (shear, homogeneous point)
    end.
Proof.
  intros E. unfold shear_from_matrix. rewrite E. cbn [length Nat.ltb Nat.leb map fold_left]. unfold longest. cbn [fst].
  assert (I0 : py_index [vr p0; vr p1; vr p2] 0 = Ok (vr p0)) by reflexivity.
  assert (I1 : py_index [vr p0; vr p1; vr p2] 1 = Ok (vr p1)) by reflexivity.
  assert (I2 : py_index [vr p0; vr p1; vr p2] 2 = Ok (vr p2)) by reflexivity.
  cbn [fst snd]. rewrite I0, I1, I2. cbn [bind].
  destruct (Rlt_dec (-1) (norm3 (cross (vr p0) (vr p1)))); cbn [fst bind];
  (match goal with |- context [Rlt_dec ?x (norm3 (cross (vr p0) (vr p2)))] => destruct (Rlt_dec x (norm3 (cross (vr p0) (vr p2)))) end); cbn [fst bind];
  (match goal with |- context [Rlt_dec ?x (norm3 (cross (vr p1) (vr p2)))] => destruct (Rlt_dec x (norm3 (cross (vr p1) (vr p2)))) end); reflexivity.
Qed.
(** the two parameters of a shear enter as a product *)
Lemma shear_same angle d p n d' p' n' t s z : inner 3 n n <> 0 -> inner 3 d d <> 0 -> inner 3 d n = 0 ->
  (forall k, (k < 3)%nat -> d' k = s * unit3 d k) -> (forall k, (k < 3)%nat -> n' k = z * unit3 n k) -> s * s = 1 -> z * z = 1 ->
  tan t * (s * z) = tan angle -> on_plane p n p' ->
  exists m m', shear_matrix angle d p n = Ok m /\ shear_matrix t d' p' n' = Ok m' /\ same4 m' m.
Proof.
  intros Hn Hd Hdn Hd' Hn' Hs Hz Ht Hp. pose proof (unit3_one n Hn) as Un. pose proof (unit3_one d Hd) as Ud.
  destruct (unit3_back n Hn) as (sn & Sn & _ & Hb). destruct (unit3_back d Hd) as (sd & Sd & _ & Hbd).
  assert (On : inner 3 n' n' = 1).
  { unfold inner in *. cbn [vsum] in *. rewrite !Hn' by lia. transitivity (z * z * (0 + unit3 n 0%nat * unit3 n 0%nat + unit3 n 1%nat * unit3 n 1%nat + unit3 n 2%nat * unit3 n 2%nat)); [ring|]. rewrite Un, Hz. ring. }
  assert (Od : inner 3 d' d' = 1).
  { unfold inner in *. cbn [vsum] in *. rewrite !Hd' by lia. transitivity (s * s * (0 + unit3 d 0%nat * unit3 d 0%nat + unit3 d 1%nat * unit3 d 1%nat + unit3 d 2%nat * unit3 d 2%nat)); [ring|]. rewrite Ud, Hs. ring. }
  assert (Odn : inner 3 d' n' = 0).
  { assert (E : sd * sn * inner 3 d' n' = s * z * inner 3 d n).
    { unfold inner. cbn [vsum]. rewrite !Hn', !Hd' by lia. rewrite (Hb 0%nat), (Hb 1%nat), (Hb 2%nat), (Hbd 0%nat), (Hbd 1%nat), (Hbd 2%nat). ring. }
    rewrite Hdn, Rmult_0_r in E. apply Rmult_integral in E. destruct E as [E|E]; [|exact E]. apply Rmult_integral in E. destruct E; lra. }
  destruct (shear_ok angle d p n Hn Hdn) as (m & Em & [A1 A2] & B & C).
  destruct (shear_ok t d' p' n' ltac:(lra) Odn) as (m' & Em' & [A1' A2'] & B' & C').
  exists m, m'. split; [exact Em|]. split; [exact Em'|].
  assert (Qn : forall k, (k < 3)%nat -> unit3 n' k = z * unit3 n k).
  { intros k Hk. unfold unit3 at 1. rewrite <- inner3_dot, On, sqrt_1. rewrite Hn' by exact Hk. field. }
  assert (Qd : forall k, (k < 3)%nat -> unit3 d' k = s * unit3 d k).
  { intros k Hk. unfold unit3 at 1. rewrite <- inner3_dot, Od, sqrt_1. rewrite Hd' by exact Hk. field. }
  assert (Hi : inner 3 p' (unit3 n) = inner 3 p (unit3 n)).
  { apply (Rmult_eq_reg_l sn); [|lra]. unfold on_plane, inner in *. cbn [vsum] in *.
    pose proof (Hb 0%nat) as B0. pose proof (Hb 1%nat) as B1. pose proof (Hb 2%nat) as B2.
    transitivity (p' 0%nat * n 0%nat + p' 1%nat * n 1%nat + p' 2%nat * n 2%nat); [rewrite B0, B1, B2; ring|].
    transitivity (p 0%nat * n 0%nat + p 1%nat * n 1%nat + p 2%nat * n 2%nat); [lra|]. rewrite B0, B1, B2. ring. }
  intros i j Li Lj. destruct (Nat.eq_dec i 3) as [->|]. { destruct (Nat.eq_dec j 3) as [->|]; [now rewrite A2, A2'|]. now rewrite A1, A1' by lia. }
  destruct (Nat.eq_dec j 3) as [->|].
  - rewrite C, C' by lia. rewrite Qd by lia. 
    assert (E : inner 3 p' (unit3 n') = z * inner 3 p (unit3 n)) by (rewrite <- Hi; unfold inner; cbn [vsum]; rewrite !Qn by lia; ring).
    rewrite E, <- Ht. ring.
  - rewrite B, B' by lia. rewrite Qd, Qn by lia. rewrite <- Ht. ring.
Qed.

Lemma shear_inverse e angle d p n m : inner 3 n n <> 0 -> inner 3 d d <> 0 -> inner 3 d n = 0 -> tan angle <> 0 ->
  shear_matrix angle d p n = Ok m -> eig_right 3 m (eig3 e m) -> eig_right 4 m (eig4 e m) ->
  (exists a b, In a (eig3 e m) /\ In b (eig3 e m) /\ ~ vsame 3 (cross (vr a) (vr b)) (fun _ => 0)) ->
  exists angle' direction normal point, shear_from_matrix e m = Ok (Some (angle', direction, normal), point) /\
  tan angle' = Rabs (tan angle) /\ along n normal /\ along d direction /\
  (forall P, point = Some P -> on_plane p n P /\ exists m', shear_matrix angle' direction P normal = Ok m' /\ same4 m' m) /\
  (ends_at 1 (eig4 e m) -> point <> None).
Proof.
  intros Hn Hd Hdn Ht Em R3 R4 Sp. pose proof (unit3_one n Hn) as Un. pose proof (unit3_one d Hd) as Ud.
  destruct (shear_ok angle d p n Hn Hdn) as (m1 & Em1 & A & B & C). rewrite Em in Em1. injection Em1 as <-.
  set (t := tan angle) in *. set (nu := unit3 n) in *. set (du := unit3 d) in *.
  pose proof (block_rank1 m t du nu B) as K3. pose proof (affine_rank1 m t du nu _ A B C) as K4.
  assert (Hnd : inner 3 nu du = 0).
  { unfold nu, du. rewrite inner3_dot in *. unfold unit3, dot3 in *. unfold Rdiv. set (x := / sqrt _). set (y := / sqrt _).
    transitivity (x * y * (d 0%nat * n 0%nat + d 1%nat * n 1%nat + d 2%nat * n 2%nat)); [ring|]. rewrite Hdn. ring. }
  assert (W : forall q, In q (eig3 e m) -> wr q = 1 /\ inner 3 nu (vr q) = 0).
  { intros q Iq. destruct (right_pair 3 m _ q R3 Iq) as [HE HL]. destruct (rank1_pair 3 m 1 t _ _ q K3 HE HL) as [_ [[E Z]|(E & N & _)]].
    - split; [exact E|]. assert (G : exists i, (i < 3)%nat /\ du i <> 0).
      { destruct (Req_dec (du 0%nat) 0) as [X0|]; [|exists 0%nat; auto with arith]. destruct (Req_dec (du 1%nat) 0) as [X1|]; [|exists 1%nat; auto with arith].
        destruct (Req_dec (du 2%nat) 0) as [X2|]; [|exists 2%nat; auto with arith]. exfalso. rewrite inner_all0 in Ud; [lra|]. intros k Hk. c3 k; assumption. }
      destruct G as (i & Hi & Gi). specialize (Z i Hi). apply Rmult_integral in Z. destruct Z as [Z|Z]; [|contradiction]. apply Rmult_integral in Z. tauto.
    - exfalso. apply N. rewrite E, Hnd. ring. }
  assert (Sel : near 1 tol4 (eig3 e m) = eig3 e m).
  { assert (G : forall l, (forall q, In q l -> wr q = 1) -> near 1 tol4 l = l).
    { induction l as [|q l IH]; intros H; [reflexivity|]. unfold near. cbn [filter].
      destruct (Rlt_dec (Rabs (wr q - 1)) tol4) as [_|X].
      - f_equal. apply IH. intros; apply H; now right.
      - exfalso. apply X. rewrite (H q) by now left. replace (1 - 1) with 0 by ring. rewrite Rabs_R0. apply tol4_pos. }
    apply G. intros q Iq. now apply W. }
  destruct (eig3 e m) as [|p0 [|p1 [|p2 [|? ?]]]] eqn:El; try (destruct R3 as (L & _); discriminate L).
  rewrite (shear_unfold e m p0 p1 p2) by (rewrite El; exact Sel).
  destruct (longest_spec (vr p0) (vr p1) (vr p2) nu Un) as (g & G1 & G2 & G3 & G4 & G5); try (apply W; cbn; tauto).
  destruct (longest (vr p0) (vr p1) (vr p2)) as [ln nv]. cbn [fst snd] in G1, G2. subst ln.
  assert (Ng : Rabs g <> 0).
  { destruct Sp as (a & b & Ia & Ib & X). intros Z. rewrite Z in *. apply X. 
    assert (S : forall u v, norm3 (cross u v) <= 0 -> vsame 3 (cross u v) (fun _ => 0)).
    { intros u v Huv. assert (E : norm3 (cross u v) = 0) by (pose proof (norm3_nonneg (cross u v)); lra).
      unfold norm3 in E. rewrite <- inner3_dot in E. apply sqrt_eq_0 in E; [|apply inner_sq_nonneg]. intros k Hk. now apply (inner_zero 3). }
    assert (S' : forall u v, norm3 (cross v u) <= 0 -> vsame 3 (cross u v) (fun _ => 0)).
    { intros u v Huv k Hk. pose proof (S v u Huv k Hk) as Q. cbn beta in Q. unfold cross in *. c3 k; cbn [vec3] in *; lra. }
    assert (S0 : forall u, vsame 3 (cross u u) (fun _ => 0)).
    { intros u k Hk. unfold cross. c3 k; cbn [vec3]; ring. }
    destruct Ia as [<-|[<-|[<-|[]]]], Ib as [<-|[<-|[<-|[]]]]; auto. }
  assert (Gg : g <> 0) by (intros Z; rewrite Z, Rabs_R0 in Ng; lra).
  set (z := g / Rabs g).
  assert (Zz : z * z = 1).
  { unfold z. pose proof (Rabs_pos_lt g Gg). assert (Q : Rabs g * Rabs g = g * g) by (rewrite <- Rabs_mult; apply Rabs_pos_eq, (Rle_0_sqr g)).
    transitivity (g * g / (Rabs g * Rabs g)); [field; lra|]. rewrite Q. field. exact Gg. }
  set (nv' := fun k => nv k / Rabs g).
  assert (Hnv : forall k, (k < 3)%nat -> nv' k = z * nu k) by (intros k Hk; unfold nv', z; rewrite G1 by exact Hk; field; exact Ng).
  set (dv := fun i => dot3 (fun j => m i j - identity4 i j) nv').
  assert (Hdv : forall k, (k < 3)%nat -> dv k = t * z * du k).
  { intros k Hk. unfold dv, dot3. rewrite !B, !Hnv by lia. unfold inner in Un. cbn [vsum] in Un.
    transitivity (t * z * du k * (0 + nu 0%nat * nu 0%nat + nu 1%nat * nu 1%nat + nu 2%nat * nu 2%nat)); [ring|]. rewrite Un. ring. }
  assert (Nz : z <> 0) by (intros E; rewrite E in Zz; lra).
  assert (Az : Rabs z = 1). { assert (Q : Rabs z * Rabs z = 1) by (rewrite <- Rabs_mult, Zz; apply Rabs_R1). pose proof (Rabs_pos z). nra. }
  assert (Na : norm3 dv = Rabs t) by (rewrite (norm3_mult du (t * z) dv Ud Hdv), Rabs_mult, Az; ring).
  assert (Nt : Rabs t <> 0) by now apply Rabs_no_R0.
  set (s := t * z / Rabs t).
  assert (Ss : s * s = 1).
  { unfold s. assert (Q : Rabs t * Rabs t = t * t) by (rewrite <- Rabs_mult; apply Rabs_pos_eq, (Rle_0_sqr t)).
    transitivity (t * t * (z * z) / (Rabs t * Rabs t)); [field; lra|]. rewrite Q, Zz. field. exact Ht. }
  destruct (point_found _ _ _ _ _ _ K4 R4) as (w & Iw & Ew). rewrite Ew.
  destruct (Req_EM_T (Rabs g) 0) as [Z|_]; [contradiction|]. cbv zeta. change (fun k : nat => nv k / Rabs g) with nv'.
  change (fun i : nat => dot3 (fun j : nat => m i j - identity4 i j) nv') with dv. rewrite Na.
  destruct (Req_EM_T (Rabs t) 0) as [Z|_]; [contradiction|].
  assert (Hd' : forall k, (k < 3)%nat -> dv k / Rabs t = s * du k) by (intros k Hk; rewrite Hdv by exact Hk; unfold s; field; exact Nt).
  exists (atan (Rabs t)), (fun k => dv k / Rabs t), nv', (homogeneous (vr w)). split; [reflexivity|]. split; [apply tan_atan|].
  split; [|split; [|split]].
  - apply unit_along; [exact Hn| |exists z; exact Hnv].
    unfold inner in *. cbn [vsum] in *. rewrite !Hnv by lia. transitivity (z * z * (0 + nu 0%nat * nu 0%nat + nu 1%nat * nu 1%nat + nu 2%nat * nu 2%nat)); [ring|]. rewrite Un, Zz. ring.
  - apply unit_along; [exact Hd| |exists s; exact Hd'].
    unfold inner in *. cbn [vsum] in *. rewrite !Hd' by lia. transitivity (s * s * (0 + du 0%nat * du 0%nat + du 1%nat * du 1%nat + du 2%nat * du 2%nat)); [ring|]. rewrite Ud, Ss. ring.
  - intros P HP. apply hom_inv in HP. destruct HP as [N3 HP].
    assert (Pl : on_plane p n P).
    { apply plane_unit; [exact Hn|]. fold nu.
      assert (FP' : inner 3 nu (vr w) = inner 3 p nu * vr w 3%nat).
      { apply (fixed_plane m t du nu (inner 3 p nu) (eig4 e m) w K4 R4 Ht); [lra|right; exact Hnd|exact Iw]. }
      apply (Rmult_eq_reg_r (vr w 3%nat)); [|exact N3]. rewrite <- FP'. unfold inner. cbn [vsum]. rewrite !HP. field. exact N3. }
    split; [exact Pl|].
    destruct (shear_same angle d p n (fun k => dv k / Rabs t) P nv' (atan (Rabs t)) s z) as (m1 & m2 & E1 & E2 & E3); auto.
    { rewrite tan_atan. fold t. unfold s. transitivity (t * (z * z)); [field; exact Nt|]. rewrite Zz. ring. }
    exists m2. split; [exact E2|]. rewrite Em in E1. now injection E1 as <-.
  - intros En. now apply (ends_final e m).
Qed.
(** no angle: the values are nan *)
Lemma shear_none e angle d p n m : inner 3 n n <> 0 -> inner 3 d n = 0 -> tan angle = 0 ->
  shear_matrix angle d p n = Ok m -> eig_right 3 m (eig3 e m) -> eig_right 4 m (eig4 e m) ->
  exists point, shear_from_matrix e m = Ok (None, point).
Proof.
  intros Hn Hdn Ht Em R3 R4.
  destruct (shear_ok angle d p n Hn Hdn) as (m1 & Em1 & A & B & C). rewrite Em in Em1. injection Em1 as <-. rewrite Ht in B, C.
  pose proof (block_rank1 m 0 _ _ B) as K3. pose proof (affine_rank1 m 0 _ _ _ A B C) as K4.
  assert (W : forall q, In q (eig3 e m) -> wr q = 1).
  { intros q Iq. destruct (right_pair 3 m _ q R3 Iq) as [HE HL]. destruct (rank1_pair 3 m 1 0 _ _ q K3 HE HL) as [_ [[E _]|(E & _)]]; [exact E|]. rewrite E. ring. }
  assert (Sel : near 1 tol4 (eig3 e m) = eig3 e m).
  { assert (G : forall l, (forall q, In q l -> wr q = 1) -> near 1 tol4 l = l).
    { induction l as [|q l IH]; intros H; [reflexivity|]. unfold near. cbn [filter].
      destruct (Rlt_dec (Rabs (wr q - 1)) tol4) as [_|X].
      - f_equal. apply IH. intros; apply H; now right.
      - exfalso. apply X. rewrite (H q) by now left. replace (1 - 1) with 0 by ring. rewrite Rabs_R0. apply tol4_pos. }
    apply G. exact W. }
  destruct (eig3 e m) as [|p0 [|p1 [|p2 [|? ?]]]] eqn:El; try (destruct R3 as (L & _); discriminate L).
  rewrite (shear_unfold e m p0 p1 p2) by (rewrite El; exact Sel).
  destruct (longest (vr p0) (vr p1) (vr p2)) as [ln nv]. 
  destruct (point_found _ _ _ _ _ _ K4 R4) as (w & Iw & Ew). rewrite Ew. exists (homogeneous (vr w)).
  destruct (Req_EM_T ln 0) as [_|N]; [reflexivity|].
  cbv zeta. match goal with |- context [Req_EM_T ?x 0] => destruct (Req_EM_T x 0) as [_|N'] end; [reflexivity|]. exfalso. apply N'.
  unfold norm3, dot3 at 1. rewrite <- sqrt_0. f_equal. 
  assert (Z : forall i, (i < 3)%nat -> dot3 (fun j => m i j - identity4 i j) (fun k => nv k / ln) = 0).
  { intros i Hi. unfold dot3. rewrite !B by lia. ring. }
  rewrite !Z by lia. ring.
Qed.
Lemma filter_short {A} (f : A -> bool) l : (length (filter f l) <= length l)%nat.
Proof. induction l as [|a l IH]; [apply le_n|]. cbn [filter]. destruct (f a); cbn [length]; lia. Qed.
(** a direction slightly off the plane with a steep angle: only two
    eigenvalues 1 are left for the three products *)
Lemma shear_steep e angle d p n m : inner 3 n n <> 0 -> inner 3 d d <> 0 ->
  tol4 <= Rabs (tan angle * inner 3 (unit3 n) (unit3 d)) ->
  shear_matrix angle d p n = Ok m -> eig_right 3 m (eig3 e m) -> exists x, shear_from_matrix e m = Raise x.
Proof.
  intros Hn Hd Ht Em R3. unfold shear_matrix in Em.
  destruct (Rlt_dec (/ 10 ^ 6) (Rabs (dot3 (unit3 n) (unit3 d)))); [discriminate|]. injection Em as Em.
  assert (B : forall i j, (i < 3)%nat -> (j < 3)%nat -> m i j = identity4 i j + tan angle * (unit3 d i * unit3 n j)).
  { intros i j Hi Hj. rewrite <- Em. unfold outer. c3 i; c3 j; unfold setcol, set33; cbn -[unit3]; ring. }
  pose proof (block_rank1 m _ _ _ B) as K3. pose proof (unit3_one d Hd) as Ud.
  destruct (right_has 3 m _ _ _ R3 (rank1_top _ _ _ _ _ _ K3) ltac:(lra)) as (q & Iq & Wq & _).
  assert (Nq : (if Rlt_dec (Rabs (wr q - 1)) tol4 then true else false) = false).
  { destruct (Rlt_dec (Rabs (wr q - 1)) tol4) as [X|X]; [|reflexivity]. exfalso. rewrite Wq in X.
    replace (1 + tan angle * inner 3 (unit3 n) (unit3 d) - 1) with (tan angle * inner 3 (unit3 n) (unit3 d)) in X by ring. lra. }
  destruct R3 as (L & _). unfold shear_from_matrix. 
  assert (S : (length (near 1 tol4 (eig3 e m)) <= 2)%nat).
  { apply in_split in Iq. destruct Iq as (l1 & l2 & E). rewrite E in L |- *. unfold near. rewrite filter_app. cbn [filter]. rewrite Nq.
    rewrite app_length in *. cbn [length] in L.
    pose proof (filter_short (fun p => if Rlt_dec (Rabs (wr p - 1)) tol4 then true else false) l1).
    pose proof (filter_short (fun p => if Rlt_dec (Rabs (wr p - 1)) tol4 then true else false) l2). lia. }
  destruct (near 1 tol4 (eig3 e m)) as [|a [|b [|? ?]]] eqn:El; cbn [length] in S; try lia.
  - eexists. reflexivity.
  - eexists. reflexivity.
  - exists IndexError. cbn [length Nat.ltb Nat.leb map fold_left fst snd].
    assert (I0 : py_index [vr a; vr b] 0 = Ok (vr a)) by reflexivity.
    assert (I1 : py_index [vr a; vr b] 1 = Ok (vr b)) by reflexivity.
    assert (I2 : py_index [vr a; vr b] 2 = Raise IndexError) by reflexivity.
    rewrite I0, I1, I2. cbn [bind]. 
    destruct (Rlt_dec (-1) (norm3 (cross (vr a) (vr b)))); reflexivity.
Qed.
