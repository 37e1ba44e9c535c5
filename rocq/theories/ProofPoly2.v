(** Lemmas for PropsPoly: symmetries, composition, scaling and cover images
    of the potentials of surface electrodes. *)
From Coquelicot Require Import Coquelicot.
From Coq Require Import Permutation Ascii String.
From Verif Require Import Base ModelExpr ModelUtils ModelField ModelGeom SpecTensor SpecField SpecPoly
  ProofTensor ProofField ProofPixel ProofDeriv ProofSys
  ProofEdgeG ProofEdgeP ProofEdgeT ProofEdgeT5 ProofEdgeS ProofEdgeR ProofEdge ProofPoly ProofEdgeSym.
Open Scope R_scope.
Notation length := List.length.

Lemma sum_opp {A} (l : list A) f : sum_over l (fun a => - f a) = - sum_over l f.
Proof. induction l as [|a l IH]; rewrite ?sum_cons; [cbn; ring|rewrite IH; ring]. Qed.

(** ** Paths as chains of edges *)
Fixpoint chain (f : p2 -> p2 -> R) (a : p2) (l : list p2) : R :=
  match l with [] => 0 | b :: l' => f a b + chain f b l' end.
Lemma chain_app f l : forall a b m, chain f a (l ++ b :: m) = chain f a (l ++ [b]) + chain f b m.
Proof. induction l as [|c l IH]; intros a b m; cbn [app chain]; [ring|]. rewrite IH. ring. Qed.
Lemma chain_edges f l : forall a, sum_over (combine (a :: removelast l) l) (fun e => f (fst e) (snd e)) = chain f a l.
Proof.
  induction l as [|b l IH]; intros a; [reflexivity|].
  destruct l as [|c l]; [cbn; ring|].
  change (removelast (b :: c :: l)) with (b :: removelast (c :: l)).
  change (combine (a :: b :: removelast (c :: l)) (b :: c :: l)) with
    ((a, b) :: combine (b :: removelast (c :: l)) (c :: l)).
  rewrite sum_cons, (IH b). reflexivity.
Qed.
Lemma edges_chain f v l : sum_over (edges_of (v :: l)) (fun e => f (fst e) (snd e)) = chain f v (l ++ [v]).
Proof.
  unfold edges_of. rewrite chain_edges. cbn [chain].
  destruct (exists_last (l := v :: l) ltac:(discriminate)) as (l0 & w & E).
  assert (Hw : last (v :: l) (0, 0) = w) by (rewrite E; apply last_last). rewrite Hw.
  destruct l0 as [|v' l0]; cbn [app] in E; injection E as E1 E2.
  - rewrite <- E1, E2. cbn. ring.
  - rewrite E2. rewrite <- app_assoc. cbn [app]. rewrite (chain_app f l0 v w [v]). cbn [chain]. ring.
Qed.
Definition path_sum (f : p2 -> p2 -> R) (l : list p2) : R := sum_over (edges_of l) (fun e => f (fst e) (snd e)).
Lemma path_sum_rot1 f v l : path_sum f (v :: l) = path_sum f (l ++ [v]).
Proof.
  unfold path_sum. rewrite edges_chain. destruct l as [|w l].
  - cbn [app]. rewrite edges_chain. reflexivity.
  - change ((w :: l) ++ [v]) with (w :: (l ++ [v])). rewrite edges_chain. cbn [chain].
    rewrite <- app_assoc. cbn [app]. rewrite (chain_app f l w v [w]). cbn [chain]. ring.
Qed.
Lemma path_sum_rot f l1 : forall l2, path_sum f (l1 ++ l2) = path_sum f (l2 ++ l1).
Proof.
  induction l1 as [|v l1 IH]; intros l2; [now rewrite app_nil_r|].
  cbn [app]. rewrite path_sum_rot1, <- app_assoc, IH, <- app_assoc. reflexivity.
Qed.
Lemma chain_rev f : (forall a b, f b a = - f a b) -> forall l a b,
  chain f a (l ++ [b]) = - chain f b (rev l ++ [a]).
Proof.
  intros H l. induction l as [|c l IH]; intros a b; cbn [app rev chain].
  - rewrite (H a b). ring.
  - rewrite IH. rewrite <- app_assoc. cbn [app]. rewrite (chain_app f (rev l) b c [a]). cbn [chain].
    rewrite (H a c). ring.
Qed.
Lemma path_sum_rev f : (forall a b, f b a = - f a b) -> forall l, path_sum f (rev l) = - path_sum f l.
Proof.
  intros H [|v l]; [cbn; ring|]. cbn [rev]. rewrite path_sum_rot. unfold path_sum. cbn [app]. rewrite !edges_chain.
  rewrite (chain_rev f H l). rewrite Ropp_involutive. reflexivity.
Qed.
Lemma path_sum_cut f : (forall a b, f b a = - f a b) -> forall v0 A v1 B,
  path_sum f (v0 :: A ++ v1 :: B) = path_sum f (v0 :: A ++ [v1]) + path_sum f (v1 :: B ++ [v0]).
Proof.
  intros H v0 A v1 B. unfold path_sum. rewrite !edges_chain.
  rewrite <- !app_assoc. cbn [app].
  rewrite (chain_app f A v0 v1 (B ++ [v0])), (chain_app f A v0 v1 [v0]), (chain_app f B v1 v0 [v1]). cbn [chain].
  rewrite (H v0 v1). ring.
Qed.

(** ** Values of polygon electrodes *)
Definition path_value (d i : nat) (n : Z) (h : R) (p : p3) (path : list p2) : R :=
  sum_over (images n) (fun k => path_sum (fun a b => edge_term d a b i (image h k p)) path).
Lemma polygon_value paths n h d i p : ~ In [] paths ->
  value (EPolygon paths n h) d i p = sum_over paths (path_value d i n h p).
Proof. intros W. now rewrite value_unit. Qed.
Lemma one_path (path : list p2) : path <> [] -> ~ In [] [path].
Proof. intros H [E|[]]. now apply H. Qed.
Lemma one_value path n h d i p : path <> [] -> value (EPolygon [path] n h) d i p = path_value d i n h p path.
Proof. intros H. rewrite polygon_value by now apply one_path. rewrite sum_cons. cbn. ring. Qed.
Lemma polygon_rotate l1 l2 n h d i p :
  value (EPolygon [l1 ++ l2] n h) d i p = value (EPolygon [l2 ++ l1] n h) d i p.
Proof.
  destruct (l1 ++ l2) as [|v l] eqn:E.
  - apply app_eq_nil in E. destruct E as [-> ->]. reflexivity.
  - rewrite <- E. rewrite !one_value.
    + unfold path_value. apply sum_ext. intros k _. apply path_sum_rot.
    + intros F. apply app_eq_nil in F. destruct F as [-> ->]. discriminate.
    + congruence.
Qed.
Lemma polygon_reverse path n h d i p :
  value (EPolygon [rev path] n h) d i p = - value (EPolygon [path] n h) d i p.
Proof.
  destruct path as [|v l]; [cbn; ring|]. rewrite !one_value; [|discriminate|].
  2:{ cbn. intros F. apply app_eq_nil in F. destruct F; discriminate. }
  unfold path_value. rewrite <- sum_opp. apply sum_ext. intros k _.
  apply path_sum_rev. intros a b. apply edge_swap.
Qed.
Lemma polygon_cut v0 A v1 B n h d i p :
  value (EPolygon [v0 :: A ++ v1 :: B] n h) d i p =
  value (EPolygon [v0 :: A ++ [v1]] n h) d i p + value (EPolygon [v1 :: B ++ [v0]] n h) d i p.
Proof.
  rewrite !one_value by discriminate. unfold path_value. rewrite <- sum_plus. apply sum_ext. intros k _.
  apply path_sum_cut. intros a b. apply edge_swap.
Qed.
Lemma polygon_union ps qs n h d i p : ~ In [] (ps ++ qs) ->
  value (EPolygon (ps ++ qs) n h) d i p = value (EPolygon ps n h) d i p + value (EPolygon qs n h) d i p.
Proof.
  intros W. rewrite !polygon_value; [apply sum_app| | |exact W]; intros H; apply W; apply in_or_app; tauto.
Qed.

(** ** Mirror *)
Lemma pixel_high n v i p : (2 * n + 1 <= i)%nat \/ (6 <= n)%nat -> pixel_term n v i p = 0.
Proof.
  intros H. unfold pixel_term. apply nth_overflow.
  destruct n as [|[|[|[|[|[|n]]]]]]; cbn [point_expr List.length point_expr0 point_expr1 point_expr2 point_expr3 point_expr4 point_expr5]; lia.
Qed.
Lemma pixel_mirror n v i p : pixel_term n v i (mirror p) = - (-1) ^ z_order n i * pixel_term n v i p.
Proof.
  destruct (le_lt_dec (2 * n + 1) i) as [Hi|Hi]; [rewrite !pixel_high by tauto; ring|].
  destruct (le_lt_dec 6 n) as [Hn|Hn]; [rewrite !pixel_high by tauto; ring|].
  unfold pixel_term. rewrite dist_mirror. cbn [mirror px py pz].
  generalize (dist p v) (px p - fst v) (py p - snd v) (pz p). intros r x y z.
  destruct n as [|[|[|[|[|[|n]]]]]]; try lia;
  cbv beta iota zeta delta [point_expr point_expr0 point_expr1 point_expr2 point_expr3 point_expr4 point_expr5];
  cbn [Nat.mul Nat.sub Nat.add] in Hi;
  repeat (tryif (exfalso; lia) then idtac else (destruct i as [|i];
    [ match goal with |- context [z_order ?n ?i] => let v := eval vm_compute in (z_order n i) in change (z_order n i) with v end;
      cbn [nth]; match goal with |- _ * ?c = _ => generalize c; intros c0; ring end | ]));
  exfalso; lia.
Qed.
Lemma images_neg n : map Z.opp (images n) = rev (images n).
Proof.
  unfold images, zrange. replace (n + 1 - - n)%Z with (2 * n + 1)%Z by lia.
  set (N := Z.to_nat (2 * n + 1)).
  apply (nth_ext _ _ 0%Z 0%Z); [now rewrite rev_length, !map_length|].
  rewrite !map_length, seq_length. intros j Hj.
  rewrite rev_nth by (now rewrite map_length, seq_length). rewrite map_length, seq_length.
  set (f := fun i : nat => (- n + Z.of_nat i)%Z).
  rewrite map_map.
  rewrite (nth_indep _ 0%Z (- f 0%nat)%Z) by (now rewrite map_length, seq_length).
  rewrite (map_nth (fun x => (- f x)%Z)).
  rewrite (nth_indep (map f _) 0%Z (f 0%nat)) by (rewrite map_length, seq_length; lia).
  rewrite map_nth. rewrite !seq_nth by lia. unfold f. lia.
Qed.
Lemma sum_images_neg n f : sum_over (images n) (fun k => f (- k)%Z) = sum_over (images n) f.
Proof.
  rewrite <- (sum_map Z.opp). rewrite images_neg. symmetry. apply sum_perm. apply Permutation_rev.
Qed.
Lemma image_mirror h k p : image h k (mirror p) = mirror (image h (- k) p).
Proof. unfold image, mirror. cbn [px py pz]. f_equal. rewrite opp_IZR. ring. Qed.
Lemma value_mirror g d i p : is_patch g -> well_formed g ->
  value g d i (mirror p) = - (-1) ^ z_order d i * value g d i p.
Proof.
  intros Hp W. rewrite !value_unit by exact W.
  destruct g as [pixels m h|paths m h|points edges pots m h|h|u]; cbn [is_patch] in Hp; try tauto; cbn [unit_term].
  - rewrite <- sum_scal. apply sum_ext. intros va _.
    rewrite <- (sum_images_neg m (fun k => pixel_term d (fst va) i (image h k p))).
    rewrite (sum_ext _ (fun k => pixel_term d (fst va) i (image h k (mirror p)))
      (fun k => - (-1) ^ z_order d i * pixel_term d (fst va) i (image h (- k) p))).
    + rewrite sum_scal. ring.
    + intros k _. rewrite image_mirror. apply pixel_mirror.
  - rewrite <- sum_scal. apply sum_ext. intros path _.
    rewrite <- (sum_images_neg m (fun k => sum_over (edges_of path) (fun e => edge_term d (fst e) (snd e) i (image h k p)))).
    rewrite <- sum_scal. apply sum_ext. intros k _. rewrite <- sum_scal. apply sum_ext. intros e _.
    rewrite image_mirror. apply edge_mirror.
  - rewrite <- sum_scal. apply sum_ext. intros e _.
    rewrite <- (sum_images_neg m (fun k => edge_term d (nth (fst (fst e)) points (0, 0)) (nth (snd (fst e)) points (0, 0)) i (image h k p))).
    rewrite (sum_ext _ _ (fun k => - (-1) ^ z_order d i *
      edge_term d (nth (fst (fst e)) points (0, 0)) (nth (snd (fst e)) points (0, 0)) i (image h (- k) p))).
    + rewrite sum_scal. ring.
    + intros k _. rewrite image_mirror. apply edge_mirror.
Qed.

(** ** Scaling *)
Lemma hom_aux s u e k t t' n n' : s * u = 1 -> t' = s ^ e * t -> n' = u ^ (e + k) * n -> t' * n' = u ^ k * (t * n).
Proof.
  intros H -> ->. rewrite pow_add. replace (s ^ e * t * (u ^ e * u ^ k * n)) with ((s * u) ^ e * (u ^ k * (t * n)))
    by (rewrite Rpow_mult_distr; ring).
  rewrite H, pow1. ring.
Qed.
Lemma inv_scale s r m c : 1 / (c * (s * r) ^ m) = (/ s) ^ m * (1 / (c * r ^ m)).
Proof. unfold Rdiv. rewrite Rpow_mult_distr, !Rinv_mult, <- pow_inv. ring. Qed.
Lemma dist_scale s p v : 0 < s -> dist (scale_pt s p) (scale2 s v) = s * dist p v.
Proof.
  intros Hs. unfold dist, scale_pt, scale2. cbn [px py pz fst snd].
  replace ((s * px p - s * fst v) ^ 2 + (s * py p - s * snd v) ^ 2 + (s * pz p) ^ 2) with
    (s ^ 2 * ((px p - fst v) ^ 2 + (py p - snd v) ^ 2 + pz p ^ 2)) by ring.
  rewrite sqrt_mult; [|apply pow2_ge_0|apply sq3_nonneg].
  rewrite sqrt_pow2 by lra. reflexivity.
Qed.
Lemma pixel_scale s n v i p : 0 < s -> pixel_term n (scale2 s v) i (scale_pt s p) = (/ s) ^ (n + 2) * pixel_term n v i p.
Proof.
  intros Hs.
  destruct (le_lt_dec (2 * n + 1) i) as [Hi|Hi]; [rewrite !pixel_high by tauto; ring|].
  destruct (le_lt_dec 6 n) as [Hn|Hn]; [rewrite !pixel_high by tauto; ring|].
  assert (Hu : s * / s = 1) by (apply Rinv_r; lra).
  unfold pixel_term. rewrite dist_scale by exact Hs. unfold scale2, scale_pt; cbn [px py pz fst snd].
  rewrite <- !Rmult_minus_distr_l.
  generalize (dist p v) (px p - fst v) (py p - snd v) (pz p). intros r x y z.
  destruct n as [|[|[|[|[|[|n]]]]]]; try lia;
  cbv beta iota zeta delta [point_expr point_expr0 point_expr1 point_expr2 point_expr3 point_expr4 point_expr5];
  cbn [Nat.mul Nat.sub Nat.add] in Hi;
  rewrite inv_scale;
  repeat (tryif (exfalso; lia) then idtac else (destruct i as [|i];
    [ cbn [nth]; match goal with
      | |- context [(/ s) ^ 3 * _] => apply (hom_aux s (/ s) 1)
      | |- context [(/ s) ^ 5 * _] => apply (hom_aux s (/ s) 2)
      | |- context [(/ s) ^ 7 * _] => apply (hom_aux s (/ s) 3)
      | |- context [(/ s) ^ 9 * _] => apply (hom_aux s (/ s) 4)
      | |- context [(/ s) ^ 11 * _] => apply (hom_aux s (/ s) 5)
      | |- context [(/ s) ^ 13 * _] => apply (hom_aux s (/ s) 6)
      end; [exact Hu|ring|reflexivity] | ]));
  exfalso; lia.
Qed.
Lemma Gnum_hom a b s r1 r2 L : (a + b <= 4)%nat ->
  Gnum a b (s * r1) (s * r2) (s ^ 2 * L) = s ^ (2 * (a + b) + 1) * Gnum a b r1 r2 L.
Proof.
  intros H. destruct a as [|[|[|[|[|a]]]]], b as [|[|[|[|[|b]]]]]; try (exfalso; lia);
  cbn [Nat.mul Nat.add]; cbn [Gnum]; ring.
Qed.
Lemma l2of_scale s v1 v2 : l2of (scale2 s v1) (scale2 s v2) = s ^ 2 * l2of v1 v2.
Proof. unfold l2of, scale2. cbn [fst snd]. ring. Qed.
Lemma Lof_scale s r1 r2 l2 : Lof (s * r1) (s * r2) (s ^ 2 * l2) = s ^ 2 * Lof r1 r2 l2.
Proof. unfold Lof. ring. Qed.
Lemma pow_cancel s u a b x : s * u = 1 -> s ^ a * (u ^ (a + b) * x) = u ^ b * x.
Proof.
  intros H. rewrite pow_add. replace (s ^ a * (u ^ a * u ^ b * x)) with ((s * u) ^ a * (u ^ b * x))
   by (rewrite Rpow_mult_distr; ring). rewrite H, pow1. ring.
Qed.
Lemma Gp_scale s v1 v2 p a b : 0 < s -> (a + b <= 4)%nat ->
  Gp (scale2 s v1) (scale2 s v2) (scale_pt s p) a b = (/ s) ^ (2 * (a + b) + 3) * Gp v1 v2 p a b.
Proof.
  intros Hs H. unfold Gp, G. rewrite !dist_scale, l2of_scale, Lof_scale, Gnum_hom by auto.
  assert (Hu : s * / s = 1) by (apply Rinv_r; lra).
  unfold Rdiv. rewrite !Rpow_mult_distr, !Rinv_mult, <- !pow_inv, <- pow_mult, !pow_inv.
  set (A := / dist p v1 ^ (2 * a + 1)). set (B := / dist p v2 ^ (2 * b + 1)).
  set (C := / Lof (dist p v1) (dist p v2) (l2of v1 v2) ^ (a + b + 1)).
  rewrite <- !pow_inv.
  transitivity (s ^ (2 * (a + b) + 1) * ((/ s) ^ (2 * (a + b) + 1 + (2 * (a + b) + 3)) *
    (Gnum a b (dist p v1) (dist p v2) (Lof (dist p v1) (dist p v2) (l2of v1 v2)) * (A * B * C)))).
  - replace (2 * (a + b) + 1 + (2 * (a + b) + 3))%nat with
      ((2 * a + 1) + ((2 * b + 1) + (2 * (a + b + 1))))%nat by lia.
    rewrite !(pow_add (/ s) (2 * a + 1)), !(pow_add (/ s) (2 * b + 1)). ring.
  - rewrite pow_cancel by exact Hu. ring.
Qed.
Lemma deg_check : forallb (fun m => forallb (fun idx =>
  forallb (fun m => (let 'M _ e1 e2 e3 e4 e5 a b := m in
     Nat.leb (a + b) 4 && Nat.eqb (2 * (a + b) + 3) ((e1 + e2 + e3 + e4 + e5) + (List.length idx + 2)))%nat) (P idx))
  (product3 m)) (seq 0 5) = true.
Proof. vm_compute. reflexivity. Qed.
Lemma E_scale s v1 v2 n idx p : 0 < s -> (n <= 4)%nat -> idx_of_order n idx ->
  E (scale2 s v1) (scale2 s v2) idx (scale_pt s p) = (/ s) ^ (n + 2) * E v1 v2 idx p.
Proof.
  intros Hs Hn Hi. pose proof (all_idx _ n idx deg_check Hn Hi) as C. rewrite forallb_forall in C.
  assert (Hu : s * / s = 1) by (apply Rinv_r; lra).
  unfold E, ep. apply evalp_scal. intros m Hm. specialize (C m Hm).
  destruct m as [c e1 e2 e3 e4 e5 a b]. apply andb_prop in C. destruct C as [C1 C2].
  apply Nat.leb_le in C1. apply Nat.eqb_eq in C2. rewrite (proj1 Hi) in C2.
  cbn [evalm scale_pt scale2 px py pz fst snd].
  change (P3 (s * px p) (s * py p) (s * pz p)) with (scale_pt s p).
  change (s * fst v1, s * snd v1) with (scale2 s v1). change (s * fst v2, s * snd v2) with (scale2 s v2).
  rewrite Gp_scale by auto. rewrite C2. rewrite <- !Rmult_minus_distr_l, !Rpow_mult_distr.
  set (x1 := px p - fst v1). set (x2 := px p - fst v2). set (y1 := py p - snd v1). set (y2 := py p - snd v2).
  rewrite <- (pow_cancel s (/ s) (e1 + e2 + e3 + e4 + e5) (n + 2) _ Hu).
  rewrite !(pow_add s). ring.
Qed.
Lemma good_scale s v1 v2 p : 0 < s -> good (scale2 s v1) (scale2 s v2) (scale_pt s p) <-> good v1 v2 p.
Proof.
  intros Hs. unfold good. rewrite !dist_scale, l2of_scale, Lof_scale by exact Hs.
  assert (Hs2 : 0 < s ^ 2) by (apply pow_lt; exact Hs).
  assert (HH : forall c x, 0 < c -> (0 < c * x <-> 0 < x)).
  { intros c x Hc. split; intros H.
    - apply (Rmult_lt_reg_l c); lra.
    - now apply Rmult_lt_0_compat. }
  rewrite !HH by assumption. tauto.
Qed.
Lemma edge_scale s n v1 v2 i p : 0 < s ->
  edge_term n (scale2 s v1) (scale2 s v2) i (scale_pt s p) = (/ s) ^ n * edge_term n v1 v2 i p.
Proof.
  intros Hs. assert (Hu : s * / s = 1) by (apply Rinv_r; lra).
  destruct (le_lt_dec (2 * n + 1) i) as [Hi|Hi]; [rewrite !edge_high by tauto; ring|].
  destruct (le_lt_dec 6 n) as [Hn|Hn]; [rewrite !edge_high by tauto; ring|].
  destruct (Nat.eq_dec n 0) as [->|N0].
  { destruct i as [|i]; [|lia]. rewrite !e0_eq. unfold den0. rewrite !dist_scale by exact Hs.
    unfold scale_pt, scale2. cbn [px py pz fst snd]. rewrite Rabs_mult, (Rabs_right s) by lra.
    rewrite pow_O, Rmult_1_l. f_equal. f_equal.
    rewrite <- !Rmult_minus_distr_l.
    set (x1 := px p - fst v1). set (x2 := px p - fst v2). set (y1 := py p - snd v1). set (y2 := py p - snd v2).
    set (A := Rabs (pz p)). set (r1 := dist p v1). set (r2 := dist p v2).
    replace (s * pz p * (s * x1 * (s * y2) - s * y1 * (s * x2))) with (s ^ 3 * (pz p * (x1 * y2 - y1 * x2))) by ring.
    replace (s * A * (s * r1 * (s * r2) + s * x1 * (s * x2) + s * y1 * (s * y2) + s * A * (s * A + s * r1 + s * r2)))
      with (s ^ 3 * (A * (r1 * r2 + x1 * x2 + y1 * y2 + A * (A + r1 + r2)))) by ring.
    unfold Rdiv. rewrite Rinv_mult.
    replace (s ^ 3 * (pz p * (x1 * y2 - y1 * x2)) *
      (/ s ^ 3 * / (A * (r1 * r2 + x1 * x2 + y1 * y2 + A * (A + r1 + r2))))) with
      ((s ^ 3 * / s ^ 3) * (pz p * (x1 * y2 - y1 * x2) * / (A * (r1 * r2 + x1 * x2 + y1 * y2 + A * (A + r1 + r2))))) by ring.
    rewrite Rinv_r by (apply pow_nonzero; lra). ring. }
  assert (D : (n = 1 /\ i = 2)%nat \/ ~ (n = 1 /\ i = 2)%nat) by lia. destruct D as [[-> ->]|D].
  { rewrite !bz_eq. rewrite (Gp_scale s v1 v2 p 0 0) by (auto; lia).
    unfold scale_pt, scale2. cbn [px py pz fst snd Nat.mul Nat.add]. rewrite <- !Rmult_minus_distr_l.
    set (x1 := px p - fst v1). set (x2 := px p - fst v2). set (y1 := py p - snd v1). set (y2 := py p - snd v2).
    match goal with |- ?l = ?r => match l with context [Gp v1 v2 p 0 0] =>
      rewrite <- (pow_cancel s (/ s) 2 1 _ Hu) end end.
    unfold Rdiv. cbn [Nat.add]. ring. }
  destruct (edge_form n v1 v2 i p ltac:(lia) Hi D) as [A B].
  destruct (edge_form n (scale2 s v1) (scale2 s v2) i (scale_pt s p) ltac:(lia) Hi D) as [A' B'].
  rewrite good_scale in A', B' by exact Hs.
  destruct (good_dec v1 v2 p) as [Hg|Hg].
  - rewrite A, A' by exact Hg.
    destruct (nmi_split n i ltac:(lia) Hi D) as (h & t & -> & Hh & Ht). cbn [hd tl].
    rewrite (E_scale s v1 v2 (n - 1) t p) by (auto; lia).
    replace (n - 1 + 2)%nat with (1 + n)%nat by lia.
    rewrite <- (pow_cancel s (/ s) 1 n _ Hu).
    unfold cf, scale2. destruct h; cbn [fst snd]; unfold Rdiv; ring.
  - rewrite B, B' by exact Hg. ring.
Qed.
Lemma image_scale s h k p : image (s * h) k (scale_pt s p) = scale_pt s (image h k p).
Proof. unfold image, scale_pt. cbn [px py pz]. f_equal. ring. Qed.
Lemma on_plane_wf f fa fh g : well_formed g -> well_formed (on_plane f fa fh g).
Proof.
  destruct g as [pixels m h|paths m h|points edges pots m h|h|u]; cbn; auto.
  - intros W H. apply in_map_iff in H. destruct H as ([|v l] & E & H); [auto|discriminate].
  - intros W e He. rewrite map_length. now apply W.
Qed.
Lemma edges_map f path : path <> [] -> edges_of (map f path) = map (fun e => (f (fst e), f (snd e))) (edges_of path).
Proof.
  intros H. destruct (exists_last H) as (l & v & ->). unfold edges_of.
  rewrite map_app. cbn [map]. rewrite !last_last, !removelast_last.
  change (f v :: map f l) with (map f (v :: l)). change (map f l ++ [f v]) with (map f l ++ map f [v]).
  rewrite <- map_app. generalize (v :: l) (l ++ [v]).
  intros a. induction a as [|x a IH]; intros [|y b]; cbn; congruence.
Qed.
Lemma nth_map_in {A B} (f : A -> B) l i da db : (i < length l)%nat -> nth i (map f l) db = f (nth i l da).
Proof. intros H. rewrite (nth_indep _ db (f da)) by (now rewrite map_length). apply map_nth. Qed.

Lemma value_plane (f : p2 -> p2) (fa fh : R -> R) (fp : p3 -> p3) (c : R) g d i p :
  is_surface g -> well_formed g ->
  (forall h k q, image (fh h) k (fp q) = fp (image h k q)) ->
  (forall v a q, fa a * pixel_term d (f v) i (fp q) = c * (a * pixel_term d v i q)) ->
  (forall v1 v2 q, edge_term d (f v1) (f v2) i (fp q) = c * edge_term d v1 v2 i q) ->
  (forall h, unit_term (ECover (fh h)) d i (fp p) = c * unit_term (ECover h) d i p) ->
  value (on_plane f fa fh g) d i (fp p) = c * value g d i p.
Proof.
  intros Hs W HI HP HE HC. rewrite (value_unit g) by exact W. rewrite value_unit by (now apply on_plane_wf).
  destruct g as [pixels m h|paths m h|points edges pots m h|h|u]; cbn [is_surface] in Hs; try tauto; cbn [on_plane].
  - cbn [unit_term]. rewrite sum_map, <- sum_scal. apply sum_ext. intros va _. cbn [fst snd].
    rewrite <- !sum_scal. apply sum_ext. intros k _. rewrite HI. apply HP.
  - cbn [unit_term]. rewrite sum_map, <- sum_scal. apply sum_ext. intros path Hpath. cbn [fst snd].
    rewrite <- !sum_scal. apply sum_ext. intros k _. rewrite edges_map.
    + rewrite sum_map, <- !sum_scal. apply sum_ext. intros e _. cbn [fst snd]. rewrite HI. apply HE.
    + intros ->. now apply W.
  - cbn [unit_term]. rewrite <- sum_scal. apply sum_ext. intros e He.
    specialize (W e He). destruct W as (W1 & W2 & W3).
    rewrite (sum_ext _ _ (fun k => c * edge_term d (nth (fst (fst e)) points (0, 0)) (nth (snd (fst e)) points (0, 0)) i (image h k p))).
    + rewrite sum_scal. ring.
    + intros k _. rewrite HI. rewrite !(nth_map_in f points _ (0, 0)) by assumption. apply HE.
  - apply HC.
Qed.
Lemma value_scale s g d i p : 0 < s -> is_surface g -> well_formed g ->
  value (scale_geom s g) d i (scale_pt s p) = / s ^ d * value g d i p.
Proof.
  intros Hs Hg W. assert (Hu : s * / s = 1) by (apply Rinv_r; lra). rewrite <- pow_inv. apply value_plane; auto.
  - intros h k q. apply image_scale.
  - intros v a q. rewrite pixel_scale by exact Hs. rewrite <- (pow_cancel s (/ s) 2 d _ Hu).
    replace (d + 2)%nat with (2 + d)%nat by lia. ring.
  - intros v1 v2 q. now apply edge_scale.
  - intros h. cbn [unit_term scale_pt pz]. destruct d as [|[|d]].
    + destruct (i =? 0)%nat; [|ring]. unfold Rdiv. rewrite Rinv_mult.
      replace (s * pz p * (/ s * / h)) with ((s * / s) * (pz p * / h)) by ring. rewrite Hu. cbn. ring.
    + destruct (i =? 2)%nat; [|ring]. unfold Rdiv. rewrite Rinv_mult. cbn. ring.
    + ring.
Qed.

(** ** Translation *)
Lemma dist_shift a b p v : dist (shift_pt a b p) (shift2 a b v) = dist p v.
Proof. unfold dist, shift_pt, shift2. cbn [px py pz fst snd]. f_equal. ring. Qed.
Lemma pixel_shift a b n v i p : pixel_term n (shift2 a b v) i (shift_pt a b p) = pixel_term n v i p.
Proof.
  unfold pixel_term. rewrite dist_shift. unfold shift_pt, shift2. cbn [px py pz fst snd].
  replace (px p + a - (fst v + a)) with (px p - fst v) by ring.
  replace (py p + b - (snd v + b)) with (py p - snd v) by ring. reflexivity.
Qed.
Lemma edge_shift a b n v1 v2 i p :
  edge_term n (shift2 a b v1) (shift2 a b v2) i (shift_pt a b p) = edge_term n v1 v2 i p.
Proof.
  unfold edge_term. rewrite !dist_shift. unfold shift_pt, shift2. cbn [px py pz fst snd].
  replace (px p + a - (fst v1 + a)) with (px p - fst v1) by ring.
  replace (py p + b - (snd v1 + b)) with (py p - snd v1) by ring.
  replace (px p + a - (fst v2 + a)) with (px p - fst v2) by ring.
  replace (py p + b - (snd v2 + b)) with (py p - snd v2) by ring.
  replace (fst v1 + a - (fst v2 + a)) with (fst v1 - fst v2) by ring.
  replace (snd v1 + b - (snd v2 + b)) with (snd v1 - snd v2) by ring. reflexivity.
Qed.
Lemma value_shift a b g d i p : is_surface g -> well_formed g ->
  value (shift_geom a b g) d i (shift_pt a b p) = value g d i p.
Proof.
  intros Hg W. rewrite <- (Rmult_1_l (value g d i p)). apply value_plane; auto.
  - intros v x q. rewrite pixel_shift. ring.
  - intros v1 v2 q. rewrite edge_shift. ring.
  - intros h. cbn [unit_term shift_pt pz]. ring.
Qed.
