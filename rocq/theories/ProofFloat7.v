(** Proof of C175: the rounding error of the potential of a system. *)
From Flocq Require Import Core.
From Verif Require Import Base ModelExpr ModelField ModelFloat ModelFloatExpr ModelFloatField SpecFloat SpecFloat2
  ProofFloat ProofFloat2 ProofFloat3 ProofFloat4 ProofFloat5 ProofFloat6.
Import ListNotations.
Open Scope R_scope.

Lemma flat_row {Y} (f : nat -> list Y) (g : nat -> list Y) j n : (j < n)%nat ->
  (forall j', f j' = if (j' =? j)%nat then g j' else []) -> flat_map f (seq 0 n) = g j.
Proof.
  intros H E. rewrite (flat_map_ext _ _ E), flat_seq.
  replace (0 <=? j)%nat with true by (symmetry; apply Nat.leb_le; lia).
  replace (j <? 0 + n)%nat with true by (symmetry; apply Nat.ltb_lt; lia). reflexivity.
Qed.

Section sys.
Variables (pw : R -> nat -> R) (at2 : R -> R -> R) (p : R).
Hypotheses (Hw : good_pow pw) (Hpi : good_pi p) (Ha : good_atan2 at2).
Let A := b64x pw at2 p.
Let fits (st : stmt) (m : R) : Prop :=
  forall v, bounded 21 (feval A v (se st)) (feval exact v (se st)) (Rabs v * m).

Lemma rnd_A : forall x, near 1 (rnd A x) x.
Proof. intros x. apply round_near. Qed.
Lemma pow_A : forall x n, near 2 (lpow A x n) (x ^ n).
Proof. intros x n. apply pow_near, Hw. Qed.
Lemma pi_A : near 1 (lpi A) PI.
Proof. apply pi_near, Hpi. Qed.

Lemma point_fits xs pixels h j : (j < length xs)%nat -> 0 < pz (at_ xs j) ->
  Forall2 fits (filter (hits j 0) (point_stmts xs pixels 0 0 h)) (sizes (at_ xs j) (EPoint pixels 0 h)).
Proof.
  intros Hj Hz. rewrite pixel_hits by (lia || assumption). cbn [sizes].
  induction pixels as [|[q a] l IH]; [constructor|]. constructor; [|exact IH]. intros v. cbn [se fst snd].
  eapply bounded_size; [|apply (pixel_entry A 0 v (at_ xs j) q h a); auto using rnd_A, pow_A, pi_A; try lia; left; reflexivity].
  rewrite Rabs_mult. right. unfold Rdiv. ring.
Qed.

Lemma edge_row j j' x1 x2 y1 y2 r1 r2 l2 z a :
  filter (hits j 0) (on_row j' (edge_fx 0 x1 x2 y1 y2 r1 r2 l2 z a)) =
  if (j' =? j)%nat then on_row j' (edge_fx 0 x1 x2 y1 y2 r1 r2 l2 z a) else [].
Proof. cbn. unfold hits; cbn [sj si]. rewrite andb_true_r. destruct (j' =? j)%nat; reflexivity. Qed.
Lemma vertex_row x z j j' vs : forall x2 y2 r2,
  filter (hits j 0) (vertex_stmts x z 0 j' vs x2 y2 r2) =
  if (j' =? j)%nat then vertex_stmts x z 0 j' vs x2 y2 r2 else [].
Proof.
  induction vs as [|w vs IH]; intros x2 y2 r2; cbn [vertex_stmts].
  - destruct (j' =? j)%nat; reflexivity.
  - cbv zeta. rewrite filter_app, IH, edge_row. destruct (j' =? j)%nat; reflexivity.
Qed.
Lemma edge_fits x q1 q2 h a c j l2 : 0 < pz x -> a = Volt /\ c = 1 \/ a = Mul (Num c) Volt ->
  let z := fx_z x 0 h in
  Forall2 fits
    (on_row j (edge_fx 0 (fx_x x q1) (fx_x x q2) (fx_y x q1) (fx_y x q2)
                (fx_r (fx_x x q1) (fx_y x q1) z) (fx_r (fx_x x q2) (fx_y x q2) z) l2 z a))
    [Rabs c * side_size x q1 q2].
Proof.
  intros Hz Hc z. constructor; [|constructor]. intros v. cbn [se fst snd].
  apply (bounded_weak 20); [lia|].
  apply (edge_entry pw at2 p v x q1 q2 h a c Hw Hpi Ha Hz Hc l2). left; reflexivity.
Qed.
Lemma vertex_fits x h j vs : 0 < pz x -> forall q,
  Forall2 fits (vertex_stmts x (fx_z x 0 h) 0 j vs (fx_x x q) (fx_y x q) (fx_r (fx_x x q) (fx_y x q) (fx_z x 0 h)))
    (map (fun vw => side_size x (fst vw) (snd vw)) (combine (q :: vs) vs)).
Proof.
  intros Hz. induction vs as [|w vs IH]; intros q; [constructor|].
  cbn [vertex_stmts combine map]. cbv zeta.
  change (side_size x (fst (q, w)) (snd (q, w)) :: ?l) with ([side_size x q w] ++ l).
  apply Forall2_app; [|apply IH].
  replace (side_size x q w) with (Rabs 1 * side_size x q w) by (rewrite Rabs_R1; ring).
  apply edge_fits; [exact Hz|left; auto].
Qed.
Lemma polygon_fits xs paths h j : (j < length xs)%nat -> 0 < pz (at_ xs j) ->
  Forall2 fits (filter (hits j 0) (flat_map (fun q => polygon_stmts xs q 0 0 h) paths))
    (sizes (at_ xs j) (EPolygon paths 0 h)).
Proof.
  intros Hj Hz. cbn [sizes]. induction paths as [|q l IH]; [constructor|].
  cbn [flat_map]. rewrite filter_app. apply Forall2_app; [|exact IH].
  unfold polygon_stmts. rewrite filter_flat.
  rewrite (flat_row _ (fun j' => let x := at_ xs j' in let v := last q (0, 0) in
    vertex_stmts x (fx_z x 0 h) 0 j' q (fx_x x v) (fx_y x v) (fx_r (fx_x x v) (fx_y x v) (fx_z x 0 h))) j _ Hj).
  - cbv zeta. apply vertex_fits, Hz.
  - intros j'. cbv zeta. change (images 0) with [0%Z]. cbn [flat_map]. rewrite app_nil_r. apply vertex_row.
Qed.
Lemma mesh_fits xs points edges pots h j : (j < length xs)%nat -> 0 < pz (at_ xs j) ->
  Forall2 fits (filter (hits j 0) (mesh_stmts xs points edges pots 0 0 h))
    (sizes (at_ xs j) (EMesh points edges pots 0 h)).
Proof.
  intros Hj Hz. cbn [sizes]. unfold mesh_stmts. induction edges as [|[[a b] c] l IH]; [constructor|].
  cbn [flat_map map fst snd]. rewrite filter_app.
  change (Rabs (nth c pots 0) * side_size (at_ xs j) (nth a points (0, 0)) (nth b points (0, 0)) :: ?r)
    with ([Rabs (nth c pots 0) * side_size (at_ xs j) (nth a points (0, 0)) (nth b points (0, 0))] ++ r).
  apply Forall2_app; [|exact IH]. rewrite filter_flat.
  rewrite (flat_row _ (fun j' => let x := at_ xs j' in
    let z := fx_z x 0 h in let v1 := nth a points (0, 0) in let v2 := nth b points (0, 0) in
    on_row j' (edge_fx 0 (fx_x x v1) (fx_x x v2) (fx_y x v1) (fx_y x v2)
      (fx_r (fx_x x v1) (fx_y x v1) z) (fx_r (fx_x x v2) (fx_y x v2) z)
      (fx_l2 (fx_x x v1) (fx_x x v2) (fx_y x v1) (fx_y x v2)) z (Mul (Num (nth c pots 0)) Volt))) j _ Hj).
  - cbv zeta. apply edge_fits; [exact Hz|right; reflexivity].
  - intros j'. cbv zeta. change (images 0) with [0%Z]. cbn [flat_map]. rewrite app_nil_r. apply edge_row.
Qed.
Lemma map_flat {X Y} (f : X -> Y) l : map f l = flat_map (fun x => [f x]) l.
Proof. induction l as [|x l IH]; [reflexivity|]. cbn. rewrite IH. reflexivity. Qed.
Lemma cls_fits j i e m k : (k <= 21)%nat -> cls e = Some k -> (forall v, Rabs (feval exact v e) = Rabs v * m) ->
  fits (Stmt j i e) m.
Proof.
  intros Hk C V v. cbn [se]. apply (bounded_weak k); [exact Hk|]. rewrite <- V.
  split; [|apply Rle_refl]. apply near_abs, cls_near; auto using rnd_A, pow_A, pi_A.
Qed.
Lemma cover_fits xs h j : (j < length xs)%nat ->
  Forall2 fits (filter (hits j 0) (cover_stmts xs h 0)) (sizes (at_ xs j) (ECover h)).
Proof.
  intros Hj. cbn [cover_stmts sizes]. rewrite map_flat, filter_flat.
  rewrite (flat_row _ (fun j' => [Stmt j' 0 (Volt * Num (pz (at_ xs j')) / Num h)%fx]) j _ Hj).
  - constructor; [|constructor]. apply (cls_fits j 0 _ _ 2); [lia|reflexivity|].
    intros v. cbn [feval exact rnd]. rewrite <- Rabs_mult. f_equal. unfold Rdiv. ring.
  - intros j'. cbn [filter]. unfold hits; cbn [sj si]. rewrite Nat.eqb_refl, andb_true_r. reflexivity.
Qed.
Lemma other_fits xs u j : (j < length xs)%nat ->
  Forall2 fits (filter (hits j 0) (other_stmts xs (u 0%nat))) (sizes (at_ xs j) (EOther u)).
Proof.
  intros Hj. unfold other_stmts. cbn [sizes]. rewrite filter_flat.
  rewrite (flat_row _ (fun j' => match u 0%nat (at_ xs j') with c :: _ => [Stmt j' 0 (Volt * Num c)%fx] | [] => [] end) j _ Hj).
  - destruct (u 0%nat (at_ xs j)) as [|c l]; constructor; [|constructor].
    apply (cls_fits j 0 _ _ 1); [lia|reflexivity|]. intros v. cbn [feval exact rnd]. apply Rabs_mult.
  - intros j'. destruct (u 0%nat (at_ xs j')) as [|c l].
    + cbn. destruct (j' =? j)%nat; reflexivity.
    + rewrite hits_on_row by (cbn; lia). destruct (Nat.eqb_spec j' j) as [->|]; reflexivity.
Qed.

Lemma geom_fits g xs l j : (j < length xs)%nat -> 0 < pz (at_ xs j) ->
  match g with EPoint _ n _ | EPolygon _ n _ | EMesh _ _ _ n _ => n = 0%Z | ECover _ | EOther _ => True end ->
  stmts g xs 0 = Ok l -> Forall2 fits (filter (hits j 0) l) (sizes (at_ xs j) g).
Proof.
  intros Hj Hz Hn E. destruct g; cbn [stmts] in E.
  - subst. injection E as <-. apply point_fits; assumption.
  - subst. destruct (existsb _ _); [discriminate|]. injection E as <-. apply polygon_fits; assumption.
  - subst. destruct (mesh_ok _ _ _); [|discriminate]. injection E as <-. apply mesh_fits; assumption.
  - injection E as <-. apply cover_fits; assumption.
  - injection E as <-. apply other_fits; assumption.
Qed.

(** the additions of a system with the size of each *)
Lemma system_fits s xs t out pot j : (j < length xs)%nat -> 0 < pz (at_ xs j) -> no_images s ->
  fel_loop A s xs 0 t pot = Ok out ->
  exists ms : list R, Forall2 (fun vs m => bounded 21 (feval A (fst vs) (se (snd vs))) (feval exact (fst vs) (se (snd vs))) m)
    (filter (fun vs => hits j 0 (snd vs)) (trace s xs 0 t)) ms /\
    total ms = size_total t (at_ xs j) s /\ (length ms <= size_count (at_ xs j) s)%nat.
Proof.
  intros Hj Hz. revert pot. induction s as [|e s IH]; intros pot Hs E.
  { exists []. repeat split; [constructor|cbn; lia]. }
  inversion Hs as [|? ? He Hs']; subst. cbn [fel_loop] in E.
  assert (F : forall v l, filter (fun vs : R * stmt => hits j 0 (snd vs)) (map (pair v) l) = map (pair v) (filter (hits j 0) l)).
  { clear. intros v l; induction l as [|a l IH]; [reflexivity|]. cbn. destruct (hits j 0 a); cbn; rewrite IH; reflexivity. }
  assert (T : size_total t (at_ xs j) (e :: s) = Rabs (volts t e) * total (sizes (at_ xs j) (egeom e)) + size_total t (at_ xs j) s) by reflexivity.
  assert (C : size_count (at_ xs j) (e :: s) = (length (sizes (at_ xs j) (egeom e)) + size_count (at_ xs j) s)%nat) by reflexivity.
  rewrite T, C. cbn [trace]. unfold volts. destruct (volt t e) as [v|].
  2:{ destruct (IH _ Hs' E) as (ms & F1 & F2 & F3). exists ms. split; [exact F1|]. split; [rewrite F2, Rabs_R0; ring|lia]. }
  destruct (Req_EM_T v 0) as [->|V].
  { destruct (IH _ Hs' E) as (ms & F1 & F2 & F3). exists ms. split; [exact F1|]. split; [rewrite F2, Rabs_R0; ring|lia]. }
  unfold fpotential in E. destruct (stmts (egeom e) xs 0) as [l|] eqn:El; [|discriminate]. cbn [bind] in E.
  destruct (IH _ Hs' E) as (ms & F1 & F2 & F3).
  pose proof (geom_fits _ _ _ _ Hj Hz He El) as G.
  exists (map (Rmult (Rabs v)) (sizes (at_ xs j) (egeom e)) ++ ms). split; [|split].
  - rewrite filter_app, F. apply Forall2_app; [|exact F1]. clear -G.
    induction G as [|st m l1 l2 H _ IH]; [constructor|]. constructor; [|exact IH]. apply H.
  - rewrite total_app, F2. f_equal. clear. induction (sizes _ _) as [|a l IH]; cbn; [ring|].
    fold (total l). fold (total (map (Rmult (Rabs v)) l)). rewrite IH. ring.
  - rewrite app_length, map_length. lia.
Qed.

Lemma any_potential s xs t out ref j : no_images s ->
  felectrical_potential A s xs 0 t = Ok out -> electrical_potential s xs 0 t = Ok ref ->
  (j < length xs)%nat -> 0 < pz (at_ xs j) ->
  Rabs (cell out j 0 - cell ref j 0) <=
  gam (size_count (at_ xs j) s + 21) * size_total t (at_ xs j) s.
Proof.
  intros Hs E E' Hj Hz. rewrite <- felectrical_exact in E'.
  destruct (system_fits s xs t out _ j Hj Hz Hs E) as (ms & F & T1 & T2).
  apply loop_trace in E. apply loop_trace in E'.
  destruct (zeros_inside 0 (length xs) j 0 Hj ltac:(lia)) as [Z1 Z2].
  rewrite E, E', (run_cell A _ j 0 _ Z1), (run_cell exact _ j 0 _ Z1), Z2.
  rewrite fsum_exact, Rplus_0_l, <- T1.
  set (l := filter _ _) in *. clearbody l.
  pose (g := fun q : (R * stmt) * R => ((feval A (fst (fst q)) (se (snd (fst q))), feval exact (fst (fst q)) (se (snd (fst q)))), snd q)).
  pose (pl := map g (combine l ms)).
  assert (M1 : map (fun p => fst (fst p)) pl = map (fun vs => feval A (fst vs) (se (snd vs))) l /\
    map (fun p => snd (fst p)) pl = map (fun vs => feval exact (fst vs) (se (snd vs))) l /\ map snd pl = ms /\
    (forall q, In q pl -> bounded 21 (fst (fst q)) (snd (fst q)) (snd q)) /\ length pl = length ms).
  { unfold pl. clear -F. induction F as [|vs m l ms H F IH]; [do 3 (split; [reflexivity|]); split; [intros q []|reflexivity]|].
    destruct IH as (I1 & I2 & I3 & I4 & I5). cbn [combine map length].
    split; [f_equal; exact I1|]. split; [f_equal; exact I2|]. split; [f_equal; exact I3|].
    split; [|f_equal; exact I5]. intros q [<-|Hq]; [exact H|apply I4, Hq]. }
  destruct M1 as (M1 & M2 & M3 & HP & M5). rewrite <- M1, <- M2, <- M3.
  assert (B0 : bounded (0 + 21) 0 0 0) by (split; rewrite ?Rminus_0_r, Rabs_R0; lra).
  pose proof (fsum_bounded A 21 pl rnd_A HP 0 0 0 0 B0) as Q. rewrite !Rplus_0_l in Q.
  apply (bounded_weak _ (size_count (at_ xs j) s + 21)) in Q; [|cbn; lia]. apply Q.
Qed.
End sys.

(** the factor of many roundings *)
Lemma gam_linear n : INR n * u64 <= 1 -> gam n <= 2 * (INR n * u64).
Proof.
  intros H. pose proof u_pos as U.
  enough (G : forall k, (k <= n)%nat -> (1 + u64) ^ k <= 1 + INR k * u64 + (INR k * u64) ^ 2).
  { specialize (G n (le_n _)). unfold gam. pose proof (pos_INR n). assert (0 <= INR n * u64) by nra. nra. }
  induction k as [|k IH]; intros Hk; [cbn; lra|]. specialize (IH ltac:(lia)).
  apply le_INR in Hk. rewrite S_INR in *. cbn [pow] in *. pose proof (pos_INR k) as K.
  rewrite Rmult_1_r. set (a := INR k) in *.
  assert (A0 : 0 <= a * u64) by (apply Rmult_le_pos; lra).
  assert (A1 : (a + 1) * u64 <= 1) by (eapply Rle_trans; [apply Rmult_le_compat_r; [lra|exact Hk]|exact H]).
  set (b := a * u64) in *. replace ((a + 1) * u64) with (b + u64) in * by (unfold b; ring).
  eapply Rle_trans; [apply Rmult_le_compat_l; [lra|exact IH]|].
  assert (0 <= u64 * b * (1 - b)) by (apply Rmult_le_pos; [apply Rmult_le_pos; lra|lra]).
  assert (0 <= u64 * u64) by (apply Rmult_le_pos; lra).
  assert (0 <= u64 * b) by (apply Rmult_le_pos; lra). lra.
Qed.
Lemma million pw at2 p : good_pow pw -> good_pi p -> good_atan2 at2 -> forall s xs t out ref j, no_images s ->
  felectrical_potential (b64x pw at2 p) s xs 0 t = Ok out -> electrical_potential s xs 0 t = Ok ref ->
  (j < length xs)%nat -> 0 < pz (at_ xs j) ->
  (size_count (at_ xs j) s <= 10 ^ 6)%nat ->
  Rabs (cell out j 0 - cell ref j 0) <= 3 / 10 ^ 10 * size_total t (at_ xs j) s.
Proof.
  intros Hw Hp Ha s xs t out ref j Hs E E' Hj Hz Hn.
  eapply Rle_trans; [apply (any_potential pw at2 p Hw Hp Ha s xs t out ref j); assumption|].
  destruct (system_fits pw at2 p Hw Hp Ha s xs t out _ j Hj Hz Hs E) as (ms & F & T1 & _).
  assert (T0 : 0 <= size_total t (at_ xs j) s).
  { rewrite <- T1. clear -F. induction F as [|vs m l ms [_ H] _ IH]; cbn; [lra|]. fold (total ms).
    pose proof (Rabs_pos (feval exact (fst vs) (se (snd vs)))). lra. }
  apply Rmult_le_compat_r; [exact T0|].
  set (n := (size_count (at_ xs j) s + 21)%nat) in *.
  assert (N : INR n <= 1000021).
  { unfold n. rewrite plus_INR. apply le_INR in Hn. rewrite pow_INR in Hn.
    assert (E10 : INR 10 = 10) by (cbn; lra). assert (E21 : INR 21 = 21) by (cbn; lra). rewrite E10 in Hn. rewrite E21. lra. }
  assert (U : u64 <= 1 / 10 ^ 15 * (112 / 1000)).
  { unfold u64. apply Rmult_le_reg_l with (2 ^ 53); [apply pow_lt; lra|]. rewrite Rinv_r by (apply pow_nonzero; lra). lra. }
  pose proof u_pos as U0. pose proof (pos_INR n) as N0.
  assert (B : INR n * u64 <= 1000021 * (1 / 10 ^ 15 * (112 / 1000))) by (apply Rmult_le_compat; lra).
  eapply Rle_trans; [apply gam_linear|]; lra.
Qed.
