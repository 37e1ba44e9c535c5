(** Proof of C18. *)
From Coq Require Import Binomial.
From Verif Require Import Base ModelUtils SpecTensor ProofTensor ModelSph SpecSph.
Open Scope R_scope.
Notation length := List.length.

Fixpoint factZ (n : nat) : Z := match n with O => 1 | S m => Z.of_nat n * factZ m end%Z.
Lemma fact_Z n : INR (fact n) = IZR (factZ n).
Proof.
  rewrite INR_IZR_INZ. f_equal. induction n as [|n IH]; [reflexivity|].
  change (fact (S n)) with (S n * fact n)%nat. rewrite Nat2Z.inj_mul, IH. reflexivity.
Qed.
Ltac fz := rewrite ?fact_Z;
  repeat match goal with |- context [factZ ?n] =>
    let v := eval vm_compute in (factZ n) in change (factZ n) with v end.
Lemma binom_Z n k q : (k <= n)%nat -> (factZ n = q * (factZ k * factZ (n - k)))%Z -> Binomial.C n k = IZR q.
Proof.
  intros _ H. unfold Binomial.C. rewrite !fact_Z, H, !mult_IZR. field.
  rewrite <- !fact_Z. split; apply INR_fact_neq_0.
Qed.
Ltac bz := repeat match goal with |- context [Binomial.C ?n ?k] =>
  let q := eval vm_compute in (factZ n / (factZ k * factZ (n - k)))%Z in
  rewrite (binom_Z n k q) by (vm_compute; first [lia | reflexivity]) end.

(** the Legendre parts, orders 0 to 5 *)
Definition leg (l a : nat) (x y z : R) : R :=
  let r := x ^ 2 + y ^ 2 + z ^ 2 in
  match l, a with
  | 0%nat, 0%nat => 1
  | 1%nat, 0%nat => z | 1%nat, 1%nat => 1
  | 2%nat, 0%nat => (3 * z ^ 2 - r) / 2 | 2%nat, 1%nat => 3 * z | 2%nat, 2%nat => 3
  | 3%nat, 0%nat => (5 * z ^ 3 - 3 * z * r) / 2 | 3%nat, 1%nat => (15 * z ^ 2 - 3 * r) / 2 | 3%nat, 2%nat => 15 * z | 3%nat, 3%nat => 15
  | 4%nat, 0%nat => (35 * z ^ 4 - 30 * z ^ 2 * r + 3 * r ^ 2) / 8 | 4%nat, 1%nat => (35 * z ^ 3 - 15 * z * r) / 2
  | 4%nat, 2%nat => (105 * z ^ 2 - 15 * r) / 2 | 4%nat, 3%nat => 105 * z | 4%nat, 4%nat => 105
  | 5%nat, 0%nat => (63 * z ^ 5 - 70 * z ^ 3 * r + 15 * z * r ^ 2) / 8
  | 5%nat, 1%nat => (315 * z ^ 4 - 210 * z ^ 2 * r + 15 * r ^ 2) / 8
  | 5%nat, 2%nat => (315 * z ^ 3 - 105 * z * r) / 2
  | 5%nat, 3%nat => (945 * z ^ 2 - 105 * r) / 2 | 5%nat, 4%nat => 945 * z | 5%nat, 5%nat => 945
  | _, _ => 0
  end.
Lemma leg_spec l a x y z : (l <= 5)%nat -> (a <= l)%nat -> legendre_part l a x y z = leg l a x y z.
Proof.
  intros Hl Ha.
  do 6 (destruct l as [|l]; [do 6 (destruct a as [|a]; [try lia; unfold legendre_part, leg, sumR; cbn [seq map fold_right Nat.div Nat.divmod Nat.sub Nat.mul Nat.add fst];
     bz; fz; cbn [pow]; field|]); lia|]). lia.
Qed.
Definition nrm (l a : nat) : R := sqrt (INR (2 * l + 1) / (4 * PI) * INR (fact (l - a)) / INR (fact (l + a))).
Lemma fact_pos n : 0 < INR (fact n).
Proof. apply lt_0_INR, lt_O_fact. Qed.
Lemma sqrt_rational v q : 0 <= q -> v = q * q -> sqrt v = q.
Proof. intros Hq ->. now apply sqrt_square. Qed.
Lemma coef (l a : nat) b s q : (a <= l)%nat -> 0 <= b -> 0 <= s -> 0 <= q ->
  16 * (2 * IZR (Z.of_nat l) + 1) * (2 * IZR (Z.of_nat l) + 1) * b * s
    * (INR (fact (l + 1)) / INR (fact (2 * l + 2))) * (INR (fact (l + 1)) / INR (fact (2 * l + 2)))
    * (INR (fact (l - a)) / INR (fact (l + a))) = q * q ->
  sph_norm (Z.of_nat l) * sqrt b * nrm l a * sqrt s = q.
Proof.
  intros _ Hb Hs Hq H. unfold sph_norm, nrm.
  replace (Z.to_nat (Z.of_nat l + 1)) with (l + 1)%nat by lia.
  replace (Z.to_nat (2 * Z.of_nat l + 2)) with (2 * l + 2)%nat by lia.
  pose proof (fact_pos (l + 1)) as P1. pose proof (fact_pos (2 * l + 2)) as P2.
  pose proof (fact_pos (l - a)) as P3. pose proof (fact_pos (l + a)) as P4.
  pose proof PI_RGT_0 as HP.
  replace (INR (2 * l + 1)) with (2 * IZR (Z.of_nat l) + 1)
    by (rewrite plus_INR, mult_INR, <- INR_IZR_INZ; cbn [INR]; ring).
  assert (Pl : 0 < 2 * IZR (Z.of_nat l) + 1) by (rewrite <- INR_IZR_INZ; pose proof (pos_INR l); lra).
  set (w := 2 * IZR (Z.of_nat l) + 1) in *. set (u := INR (fact (l + 1)) / INR (fact (2 * l + 2))) in *.
  set (k := INR (fact (l - a)) / INR (fact (l + a))) in *.
  assert (Pu : 0 < u) by (unfold u; apply Rdiv_lt_0_compat; assumption).
  assert (Pk : 0 < k) by (unfold k; apply Rdiv_lt_0_compat; assumption).
  assert (Pn : 0 < w / (4 * PI) * k) by (apply Rmult_lt_0_compat; [apply Rdiv_lt_0_compat; lra|assumption]).
  replace (8 * sqrt (PI * w) * INR (fact (l + 1)) / INR (fact (2 * l + 2))) with (8 * u * sqrt (PI * w))
    by (unfold u, Rdiv; ring).
  replace (w / (4 * PI) * INR (fact (l - a)) / INR (fact (l + a))) with (w / (4 * PI) * k) by (unfold k, Rdiv; ring).
  assert (Q : 0 <= PI * w) by (apply Rmult_le_pos; lra).
  assert (E : sqrt (PI * w) * sqrt b * sqrt (w / (4 * PI) * k) * sqrt s = sqrt (PI * w * b * (w / (4 * PI) * k) * s)).
  { set (p := PI * w) in *. set (g := w / (4 * PI) * k) in *.
    assert (B1 : 0 <= p * b) by now apply Rmult_le_pos.
    assert (B2 : 0 <= p * b * g) by (apply Rmult_le_pos; lra).
    rewrite (sqrt_mult (p * b * g) s B2 Hs), (sqrt_mult (p * b) g B1 (Rlt_le _ _ Pn)), (sqrt_mult p b Q Hb). reflexivity. }
  transitivity (8 * u * (sqrt (PI * w) * sqrt b * sqrt (w / (4 * PI) * k) * sqrt s)); [ring|].
  rewrite E, (sqrt_rational _ (q / (8 * u))).
  - field. lra.
  - apply Rmult_le_pos; [assumption|]. apply Rlt_le, Rinv_0_lt_compat. lra.
  - replace (q / (8 * u) * (q / (8 * u))) with (q * q / (64 * u * u)) by (field; lra).
    rewrite <- H. field. split; lra.
Qed.
Ltac cf := cbn [Z.of_nat Pos.of_succ_nat Pos.succ Nat.add Nat.mul Nat.sub]; fz; field.
Lemma coef_0_0 : sph_norm 0 * sqrt 1 * nrm 0 0 * sqrt 1 = 2 / 1.
Proof. apply (coef 0 0); [lia|lra..|]. cf. Qed.
Lemma coef_1_0 : sph_norm 1 * sqrt 1 * nrm 1 0 * sqrt 1 = 1 / 1.
Proof. apply (coef 1 0); [lia|lra..|]. cf. Qed.
Lemma coef_1_1 : sph_norm 1 * sqrt 1 * nrm 1 1 * sqrt 2 = 1 / 1.
Proof. apply (coef 1 1); [lia|lra..|]. cf. Qed.
Lemma coef_2_0 : sph_norm 2 * sqrt 1 * nrm 2 0 * sqrt 1 = 1 / 6.
Proof. apply (coef 2 0); [lia|lra..|]. cf. Qed.
Lemma coef_2_1 : sph_norm 2 * sqrt 3 * nrm 2 1 * sqrt 2 = 1 / 6.
Proof. apply (coef 2 1); [lia|lra..|]. cf. Qed.
Lemma coef_2_2 : sph_norm 2 * sqrt 3 * nrm 2 2 * sqrt 2 = 1 / 12.
Proof. apply (coef 2 2); [lia|lra..|]. cf. Qed.
Lemma coef_3_0 : sph_norm 3 * sqrt 1 * nrm 3 0 * sqrt 1 = 1 / 60.
Proof. apply (coef 3 0); [lia|lra..|]. cf. Qed.
Lemma coef_3_1 : sph_norm 3 * sqrt 6 * nrm 3 1 * sqrt 2 = 1 / 60.
Proof. apply (coef 3 1); [lia|lra..|]. cf. Qed.
Lemma coef_3_2 : sph_norm 3 * sqrt 15 * nrm 3 2 * sqrt 2 = 1 / 120.
Proof. apply (coef 3 2); [lia|lra..|]. cf. Qed.
Lemma coef_3_3 : sph_norm 3 * sqrt 10 * nrm 3 3 * sqrt 2 = 1 / 360.
Proof. apply (coef 3 3); [lia|lra..|]. cf. Qed.
Lemma coef_4_0 : sph_norm 4 * sqrt 1 * nrm 4 0 * sqrt 1 = 1 / 840.
Proof. apply (coef 4 0); [lia|lra..|]. cf. Qed.
Lemma coef_4_1 : sph_norm 4 * sqrt 10 * nrm 4 1 * sqrt 2 = 1 / 840.
Proof. apply (coef 4 1); [lia|lra..|]. cf. Qed.
Lemma coef_4_2 : sph_norm 4 * sqrt 5 * nrm 4 2 * sqrt 2 = 1 / 5040.
Proof. apply (coef 4 2); [lia|lra..|]. cf. Qed.
Lemma coef_4_3 : sph_norm 4 * sqrt 70 * nrm 4 3 * sqrt 2 = 1 / 5040.
Proof. apply (coef 4 3); [lia|lra..|]. cf. Qed.
Lemma coef_4_4 : sph_norm 4 * sqrt 35 * nrm 4 4 * sqrt 2 = 1 / 20160.
Proof. apply (coef 4 4); [lia|lra..|]. cf. Qed.
Lemma coef_5_0 : sph_norm 5 * sqrt 1 * nrm 5 0 * sqrt 1 = 1 / 15120.
Proof. apply (coef 5 0); [lia|lra..|]. cf. Qed.
Lemma coef_5_1 : sph_norm 5 * sqrt 15 * nrm 5 1 * sqrt 2 = 1 / 15120.
Proof. apply (coef 5 1); [lia|lra..|]. cf. Qed.
Lemma coef_5_2 : sph_norm 5 * sqrt 105 * nrm 5 2 * sqrt 2 = 1 / 30240.
Proof. apply (coef 5 2); [lia|lra..|]. cf. Qed.
Lemma coef_5_3 : sph_norm 5 * sqrt 70 * nrm 5 3 * sqrt 2 = 1 / 181440.
Proof. apply (coef 5 3); [lia|lra..|]. cf. Qed.
Lemma coef_5_4 : sph_norm 5 * sqrt 35 * nrm 5 4 * sqrt 2 = 1 / 1088640.
Proof. apply (coef 5 4); [lia|lra..|]. cf. Qed.
Lemma coef_5_5 : sph_norm 5 * sqrt 14 * nrm 5 5 * sqrt 2 = 1 / 5443200.
Proof. apply (coef 5 5); [lia|lra..|]. cf. Qed.

(** the three shapes of a coefficient times its harmonic *)
Lemma term_pb n p b N s q lin sg L tr : n * b * N * s = q ->
  n * (p * b * lin) * (sg * N * L * (s * tr)) = q * (p * sg * lin * L * tr).
Proof. intros <-. ring. Qed.
Lemma term_b n b N s q lin sg L tr : n * b * N * s = q ->
  n * (b * lin) * (sg * N * L * (s * tr)) = q * (sg * lin * L * tr).
Proof. intros <-. ring. Qed.
Lemma term_0 n N q lin sg L : n * sqrt 1 * N * sqrt 1 = q ->
  n * lin * (sg * N * L * 1) = q * (sg * lin * L).
Proof. intros <-. rewrite sqrt_1. ring. Qed.

Lemma solid_leg l m x y z : (l <= 5)%nat -> (Z.abs_nat m <= l)%nat ->
  solid l m x y z = (-1) ^ Z.abs_nat m * nrm l (Z.abs_nat m) * leg l (Z.abs_nat m) x y z
    * (if (m <? 0)%Z then sqrt 2 * snd (powc (Z.abs_nat m) x y)
       else if (m =? 0)%Z then 1 else sqrt 2 * fst (powc (Z.abs_nat m) x y)).
Proof. intros Hl Hm. unfold solid. rewrite leg_spec by assumption. reflexivity. Qed.

Lemma contract_ext l : forall T U v, (forall i, idx_of_order l i -> T i = U i) -> contract l T v = contract l U v.
Proof.
  induction l as [|l IH]; intros T U v H; cbn [contract].
  - apply H. split; [reflexivity|constructor].
  - rewrite (IH (fun i => T (0%nat :: i)) (fun i => U (0%nat :: i))),
      (IH (fun i => T (1%nat :: i)) (fun i => U (1%nat :: i))),
      (IH (fun i => T (2%nat :: i)) (fun i => U (2%nat :: i))); [reflexivity|..];
      intros i [E F]; apply H; (split; [cbn; congruence|constructor; [lia|assumption]]).
Qed.

(** the contraction of a flat array *)
Definition flat_taylor (l : nat) (t : list R) (x y z : R) : R :=
  contract l (fun i => nth (rowmajor i) t 0) (vec x y z) / INR (fact l).
Lemma taylor_flat l t T x y z : holds l t T -> taylor l T x y z = flat_taylor l t x y z.
Proof.
  intros [_ H]. unfold taylor, flat_taylor. f_equal. apply contract_ext. intros i Hi.
  symmetry. apply nth_error_nth. now apply H.
Qed.
Ltac solids :=
  repeat match goal with |- context [solid ?l ?m ?x ?y ?z] =>
    rewrite (solid_leg l m x y z) by (vm_compute; lia);
    let a := eval vm_compute in (Z.abs_nat m) in change (Z.abs_nat m) with a;
    let b := eval vm_compute in (m <? 0)%Z in change (m <? 0)%Z with b;
    let b := eval vm_compute in (m =? 0)%Z in change (m =? 0)%Z with b end; cbv beta iota.
(** the expanded list, computed on symbolic entries *)
Ltac expanded_in E n :=
  unfold expand_tensor in E; cbn [length Nat.div Nat.divmod fst] in E;
  let em := eval vm_compute in (nth_error expand_map n) in
  change (nth_error expand_map n) with em in E;
  cbn [collect map ent_value nth_error bind] in E; injection E as <-.
Ltac run_model :=
  unfold cartesian_to_spherical_harmonics; cbn [length];
  match goal with |- context [((Z.of_nat ?k - 1) / 2)%Z] =>
    let v := eval vm_compute in ((Z.of_nat k - 1) / 2)%Z in change ((Z.of_nat k - 1) / 2)%Z with v end;
  cbn [Z.eqb Pos.eqb bind map]; reflexivity.
Ltac setup l :=
  eexists; split; [run_model|]; split; [reflexivity|];
  let t := fresh "t" in let E := fresh "E" in intros t E; expanded_in E l;
  match goal with |- context [zrange ?a ?b] => let v := eval vm_compute in (zrange a b) in change (zrange a b) with v end;
  cbn [map2]; unfold sumR; cbn [fold_right]; solids.
Ltac flat :=
  unfold flat_taylor; fz;
  cbn [contract]; cbv [rowmajor fold_left Nat.mul Nat.add vec nth];
  cbn [leg powc fst snd pow].
Lemma term_1 n N s q lin sg L tr : n * sqrt 1 * N * s = q ->
  n * lin * (sg * N * L * (s * tr)) = q * (sg * lin * L * tr).
Proof. intros <-. rewrite sqrt_1. ring. Qed.
Lemma order0 a x y z : exists d,
  cartesian_to_spherical_harmonics [a] = Ok d /\ length d = 1%nat /\
  forall t, expand_tensor [a] = Ok t ->
  flat_taylor 0 t x y z = sumR (map2 (fun s m => s * solid 0 m x y z) d (zrange (-0) 1)).
Proof.
  setup 0%nat.
  rewrite ?(term_0 _ _ _ _ _ _ coef_0_0).
  flat. field.
Qed.
Lemma order1 dx dy dz x y z : exists d,
  cartesian_to_spherical_harmonics [dx; dy; dz] = Ok d /\ length d = 3%nat /\
  forall t, expand_tensor [dx; dy; dz] = Ok t ->
  flat_taylor 1 t x y z = sumR (map2 (fun s m => s * solid 1 m x y z) d (zrange (-1) 2)).
Proof.
  setup 1%nat.
  rewrite ?(term_0 _ _ _ _ _ _ coef_1_0),
    ?(term_1 _ _ _ _ _ _ _ _ coef_1_1).
  flat. field.
Qed.
Lemma order2 xx xy xz yy yz x y z : exists d,
  cartesian_to_spherical_harmonics [xx; xy; xz; yy; yz] = Ok d /\ length d = 5%nat /\
  forall t, expand_tensor [xx; xy; xz; yy; yz] = Ok t ->
  flat_taylor 2 t x y z = sumR (map2 (fun s m => s * solid 2 m x y z) d (zrange (-2) 3)).
Proof.
  setup 2%nat.
  rewrite ?(term_0 _ _ _ _ _ _ coef_2_0),
    ?(term_pb _ _ _ _ _ _ _ _ _ _ coef_2_1),
    ?(term_b _ _ _ _ _ _ _ _ _ coef_2_1),
    ?(term_pb _ _ _ _ _ _ _ _ _ _ coef_2_2),
    ?(term_b _ _ _ _ _ _ _ _ _ coef_2_2).
  flat. field.
Qed.
Lemma order3 xxy xxz yyz xyy xzz yzz xyz x y z : exists d,
  cartesian_to_spherical_harmonics [xxy; xxz; yyz; xyy; xzz; yzz; xyz] = Ok d /\ length d = 7%nat /\
  forall t, expand_tensor [xxy; xxz; yyz; xyy; xzz; yzz; xyz] = Ok t ->
  flat_taylor 3 t x y z = sumR (map2 (fun s m => s * solid 3 m x y z) d (zrange (-3) 4)).
Proof.
  setup 3%nat.
  rewrite ?(term_0 _ _ _ _ _ _ coef_3_0),
    ?(term_pb _ _ _ _ _ _ _ _ _ _ coef_3_1),
    ?(term_b _ _ _ _ _ _ _ _ _ coef_3_1),
    ?(term_pb _ _ _ _ _ _ _ _ _ _ coef_3_2),
    ?(term_b _ _ _ _ _ _ _ _ _ coef_3_2),
    ?(term_pb _ _ _ _ _ _ _ _ _ _ coef_3_3),
    ?(term_b _ _ _ _ _ _ _ _ _ coef_3_3).
  flat. field.
Qed.
Lemma order4 xxxy xxxz xxyy xxzz xyyy xzzz yyyz yyzz yzzz x y z : exists d,
  cartesian_to_spherical_harmonics [xxxy; xxxz; xxyy; xxzz; xyyy; xzzz; yyyz; yyzz; yzzz] = Ok d /\ length d = 9%nat /\
  forall t, expand_tensor [xxxy; xxxz; xxyy; xxzz; xyyy; xzzz; yyyz; yyzz; yzzz] = Ok t ->
  flat_taylor 4 t x y z = sumR (map2 (fun s m => s * solid 4 m x y z) d (zrange (-4) 5)).
Proof.
  setup 4%nat.
  rewrite ?(term_0 _ _ _ _ _ _ coef_4_0),
    ?(term_pb _ _ _ _ _ _ _ _ _ _ coef_4_1),
    ?(term_b _ _ _ _ _ _ _ _ _ coef_4_1),
    ?(term_pb _ _ _ _ _ _ _ _ _ _ coef_4_2),
    ?(term_b _ _ _ _ _ _ _ _ _ coef_4_2),
    ?(term_pb _ _ _ _ _ _ _ _ _ _ coef_4_3),
    ?(term_b _ _ _ _ _ _ _ _ _ coef_4_3),
    ?(term_pb _ _ _ _ _ _ _ _ _ _ coef_4_4),
    ?(term_b _ _ _ _ _ _ _ _ _ coef_4_4).
  flat. field.
Qed.
Lemma order5 xxxyy xxxyz xxxzz xxyyy xxyyz xxyzz xxzzz xyyyz xyyzz yyyzz yyzzz x y z : exists d,
  cartesian_to_spherical_harmonics [xxxyy; xxxyz; xxxzz; xxyyy; xxyyz; xxyzz; xxzzz; xyyyz; xyyzz; yyyzz; yyzzz] = Ok d /\ length d = 11%nat /\
  forall t, expand_tensor [xxxyy; xxxyz; xxxzz; xxyyy; xxyyz; xxyzz; xxzzz; xyyyz; xyyzz; yyyzz; yyzzz] = Ok t ->
  flat_taylor 5 t x y z = sumR (map2 (fun s m => s * solid 5 m x y z) d (zrange (-5) 6)).
Proof.
  setup 5%nat.
  rewrite ?(term_0 _ _ _ _ _ _ coef_5_0),
    ?(term_pb _ _ _ _ _ _ _ _ _ _ coef_5_1),
    ?(term_b _ _ _ _ _ _ _ _ _ coef_5_1),
    ?(term_pb _ _ _ _ _ _ _ _ _ _ coef_5_2),
    ?(term_b _ _ _ _ _ _ _ _ _ coef_5_2),
    ?(term_pb _ _ _ _ _ _ _ _ _ _ coef_5_3),
    ?(term_b _ _ _ _ _ _ _ _ _ coef_5_3),
    ?(term_pb _ _ _ _ _ _ _ _ _ _ coef_5_4),
    ?(term_b _ _ _ _ _ _ _ _ _ coef_5_4),
    ?(term_pb _ _ _ _ _ _ _ _ _ _ coef_5_5),
    ?(term_b _ _ _ _ _ _ _ _ _ coef_5_5).
  flat. field.
Qed.
(** ** C18 *)
Lemma taylor_term l c T : (l <= 5)%nat -> length c = (2 * l + 1)%nat ->
  symmetric l T -> traceless l T ->
  (forall i s idx, nth_error (doc_names l) i = Some s -> spells s idx -> nth_error c i = Some (T idx)) ->
  exists d, cartesian_to_spherical_harmonics c = Ok d /\ length d = (2 * l + 1)%nat /\
  (forall x y z, taylor l T x y z = sumR (map2 (fun s m => s * solid l m x y z) d (zrange (- Z.of_nat l) (Z.of_nat l + 1)))).
Proof.
  intros Hl Hc Hs Ht Hn.
  destruct (expand_unique' l c T Hl Hc Hs Ht Hn) as [t [Et HT]].
  assert (G : forall x y z, exists d, cartesian_to_spherical_harmonics c = Ok d /\ length d = (2 * l + 1)%nat /\
     forall t, expand_tensor c = Ok t -> flat_taylor l t x y z =
       sumR (map2 (fun s m => s * solid l m x y z) d (zrange (- Z.of_nat l) (Z.of_nat l + 1)))).
  { intros x y z. clear Hs Ht Hn HT Et.
    destruct l as [|l].
    { destruct c as [|a0 [|? c]]; try discriminate Hc.
      change (- Z.of_nat 0)%Z with (- 0)%Z; change (Z.of_nat 0 + 1)%Z with 1%Z; change (2 * 0 + 1)%nat with 1%nat.
      exact (order0 a0 x y z). }
    destruct l as [|l].
    { destruct c as [|a0 [|a1 [|a2 [|? c]]]]; try discriminate Hc.
      change (- Z.of_nat 1)%Z with (- 1)%Z; change (Z.of_nat 1 + 1)%Z with 2%Z; change (2 * 1 + 1)%nat with 3%nat.
      exact (order1 a0 a1 a2 x y z). }
    destruct l as [|l].
    { destruct c as [|a0 [|a1 [|a2 [|a3 [|a4 [|? c]]]]]]; try discriminate Hc.
      change (- Z.of_nat 2)%Z with (- 2)%Z; change (Z.of_nat 2 + 1)%Z with 3%Z; change (2 * 2 + 1)%nat with 5%nat.
      exact (order2 a0 a1 a2 a3 a4 x y z). }
    destruct l as [|l].
    { destruct c as [|a0 [|a1 [|a2 [|a3 [|a4 [|a5 [|a6 [|? c]]]]]]]]; try discriminate Hc.
      change (- Z.of_nat 3)%Z with (- 3)%Z; change (Z.of_nat 3 + 1)%Z with 4%Z; change (2 * 3 + 1)%nat with 7%nat.
      exact (order3 a0 a1 a2 a3 a4 a5 a6 x y z). }
    destruct l as [|l].
    { destruct c as [|a0 [|a1 [|a2 [|a3 [|a4 [|a5 [|a6 [|a7 [|a8 [|? c]]]]]]]]]]; try discriminate Hc.
      change (- Z.of_nat 4)%Z with (- 4)%Z; change (Z.of_nat 4 + 1)%Z with 5%Z; change (2 * 4 + 1)%nat with 9%nat.
      exact (order4 a0 a1 a2 a3 a4 a5 a6 a7 a8 x y z). }
    destruct l as [|l].
    { destruct c as [|a0 [|a1 [|a2 [|a3 [|a4 [|a5 [|a6 [|a7 [|a8 [|a9 [|a10 [|? c]]]]]]]]]]]]; try discriminate Hc.
      change (- Z.of_nat 5)%Z with (- 5)%Z; change (Z.of_nat 5 + 1)%Z with 6%Z; change (2 * 5 + 1)%nat with 11%nat.
      exact (order5 a0 a1 a2 a3 a4 a5 a6 a7 a8 a9 a10 x y z). }
    lia. }
  destruct (G 0 0 0) as [d [Ed [Ld _]]]. exists d. split; [exact Ed|]. split; [exact Ld|].
  intros x y z. destruct (G x y z) as [d' [Ed' [_ P]]]. rewrite Ed in Ed'. injection Ed' as <-.
  rewrite (taylor_flat l t T x y z HT). now apply P.
Qed.
