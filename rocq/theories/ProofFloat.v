(** Proofs of C162 and C163. *)
From Coq Require Import Permutation.
From Flocq Require Import Core.
From Verif Require Import Base ModelField ModelFloat ModelFloatExpr ModelFloatField SpecFloat.
Open Scope R_scope.

(** ** The voltage enters a term by multiplications and divisions only *)
Fixpoint free (e : fx) : bool :=
  match e with
  | Volt => false
  | Num _ | Lit _ | Pi => true
  | Add a b | Sub a b | Mul a b | Div a b | Atan2 a b => free a && free b
  | Neg a | Pow a _ | Sqrt a | Abs a => free a
  end.
(** number of roundings of a value that contains the voltage *)
Fixpoint chain (e : fx) : option nat :=
  match e with
  | Volt => Some 0%nat
  | Mul a b =>
      if free a then option_map S (chain b)
      else if free b then option_map S (chain a) else None
  | Div a b => if free b then option_map S (chain a) else None
  | Neg a => chain a
  | _ => None
  end.
Definition short (e : fx) : bool :=
  match chain e with Some k => (k <=? 5)%nat | None => false end.

Lemma free_eval A v w e : free e = true -> feval A v e = feval A w e.
Proof.
  induction e; cbn; intros H; try discriminate; auto;
    try (apply andb_prop in H; destruct H as [H1 H2]; rewrite IHe1, IHe2 by assumption; reflexivity);
    rewrite IHe by assumption; reflexivity.
Qed.

Lemma free_x x v : free (fx_x x v) = true. Proof. reflexivity. Qed.
Lemma free_y x v : free (fx_y x v) = true. Proof. reflexivity. Qed.
Lemma free_z x k h : free (fx_z x k h) = true. Proof. reflexivity. Qed.
Lemma free_r x y z : free x = true -> free y = true -> free z = true -> free (fx_r x y z) = true.
Proof. intros H1 H2 H3; cbn; rewrite H1, H2, H3; reflexivity. Qed.
Lemma free_l2 a b c d : free a = true -> free b = true -> free c = true -> free d = true ->
  free (fx_l2 a b c d) = true.
Proof. intros H1 H2 H3 H4; cbn; rewrite H1, H2, H3, H4; reflexivity. Qed.

Lemma point_short d x y z r a :
  free x = true -> free y = true -> free z = true -> free r = true ->
  forallb short (point_fx d x y z r (Mul (Num a) Volt)) = true.
Proof.
  intros H1 H2 H3 H4.
  destruct d as [|[|[|[|[|[|d]]]]]]; [..|reflexivity];
    unfold point_fx, point_fx0, point_fx1, point_fx2, point_fx3, point_fx4, point_fx5, short;
    cbn [forallb chain free]; rewrite ?H1, ?H2, ?H3, ?H4; reflexivity.
Qed.
Lemma edge_short d x1 x2 y1 y2 r1 r2 l2 z a :
  free x1 = true -> free x2 = true -> free y1 = true -> free y2 = true ->
  free r1 = true -> free r2 = true -> free l2 = true -> free z = true ->
  (a = Volt \/ exists p, a = Mul (Num p) Volt) ->
  forallb short (edge_fx d x1 x2 y1 y2 r1 r2 l2 z a) = true.
Proof.
  intros H1 H2 H3 H4 H5 H6 H7 H8 Ha.
  assert (C : exists k, chain a = Some k /\ (k <= 1)%nat /\ free a = false).
  { destruct Ha as [->|[p ->]]; [exists 0%nat|exists 1%nat]; cbn; auto. }
  destruct C as [k [C1 [C2 C3]]].
  destruct d as [|[|[|[|[|[|d]]]]]]; [..|reflexivity];
    unfold edge_fx, edge_fx0, edge_fx1, edge_fx2, edge_fx3, edge_fx4, edge_fx5, short;
    cbn [forallb chain free];
    rewrite ?H1, ?H2, ?H3, ?H4, ?H5, ?H6, ?H7, ?H8, ?C1, ?C3; cbn [andb option_map];
    destruct k as [|[|k]]; try reflexivity; lia.
Qed.

Definition ok_stmt (s : stmt) : Prop := short (se s) = true.
Lemma on_row_ok j l : forallb short l = true -> Forall ok_stmt (on_row j l).
Proof.
  intros H. unfold on_row. generalize 0%nat as k.
  induction l as [|e l IH]; intros k; cbn; [constructor|].
  cbn in H. apply andb_prop in H as [H1 H2]. constructor; [exact H1|]. apply IH, H2.
Qed.
Lemma flat_ok {X} (f : X -> list stmt) l : (forall x, Forall ok_stmt (f x)) -> Forall ok_stmt (flat_map f l).
Proof.
  intros H; induction l as [|x l IH]; cbn; [constructor|]. apply Forall_app; split; auto.
Qed.
Lemma vertex_ok x z d j vs : free z = true -> forall x2 y2 r2,
  free x2 = true -> free y2 = true -> free r2 = true -> Forall ok_stmt (vertex_stmts x z d j vs x2 y2 r2).
Proof.
  intros Hz; induction vs as [|v vs IH]; intros x2 y2 r2 H1 H2 H3; [constructor|].
  cbn [vertex_stmts]. cbv zeta. apply Forall_app; split.
  - apply on_row_ok, edge_short; auto using free_x, free_y, free_r, free_l2.
  - apply IH; auto using free_x, free_y, free_r.
Qed.
Lemma stmts_ok g xs d l : stmts g xs d = Ok l -> Forall ok_stmt l.
Proof.
  destruct g as [pixels nmax h|paths nmax h|points edges pots nmax h|h|u]; cbn [stmts].
  - intros E; injection E as <-. apply flat_ok; intros pa; cbv zeta.
    apply flat_ok; intros j; apply flat_ok; intros k.
    apply on_row_ok, point_short; auto using free_x, free_y, free_r, free_z.
  - destruct existsb; intros E; [discriminate|]; injection E as <-.
    apply flat_ok; intros p. apply flat_ok; intros j; cbv zeta; apply flat_ok; intros m.
    apply vertex_ok; auto using free_x, free_y, free_r, free_z.
  - destruct mesh_ok; intros E; [|discriminate]; injection E as <-.
    apply flat_ok; intros p. apply flat_ok; intros j; cbv zeta; apply flat_ok; intros m.
    apply on_row_ok, edge_short; auto using free_x, free_y, free_r, free_z, free_l2. right; eauto.
  - intros E; injection E as <-. destruct d as [|[|d]]; cbn [cover_stmts]; [| |constructor];
      apply Forall_forall; intros s Hs; apply in_map_iff in Hs as [j [<- _]]; reflexivity.
  - intros E; injection E as <-. apply flat_ok; intros j. apply on_row_ok.
    induction (u d (at_ xs j)) as [|c r IH]; cbn; [reflexivity|exact IH].
Qed.

(** ** Multiplying the voltage by a factor the rounding commutes with *)
Section factor.
Variable A : arith.
Variable c : R.
Hypothesis c0 : c <> 0.
Hypothesis Hc : forall x, rnd A (c * x) = c * rnd A x.
Lemma eval_factor v e k : chain e = Some k -> feval A (c * v) e = c * feval A v e.
Proof.
  revert k; induction e; cbn; intros k H; try discriminate; auto.
  - destruct (free e1) eqn:F1; [|destruct (free e2) eqn:F2; [|discriminate]].
    + destruct (chain e2) as [k2|]; [|discriminate].
      rewrite (IHe2 k2) by reflexivity. rewrite (free_eval A (c * v) v e1 F1), <- Hc. f_equal; ring.
    + destruct (chain e1) as [k1|]; [|discriminate].
      rewrite (IHe1 k1) by reflexivity. rewrite (free_eval A (c * v) v e2 F2), <- Hc. f_equal; ring.
  - destruct (free e2) eqn:F2; [|discriminate]. destruct (chain e1) as [k1|]; [|discriminate].
    rewrite (IHe1 k1) by reflexivity. rewrite (free_eval A (c * v) v e2 F2), <- Hc. f_equal.
    unfold Rdiv; ring.
  - rewrite (IHe k) by assumption; ring.
Qed.
Lemma upd_at_map i f g r : (forall a, f (c * a) = c * g a) ->
  upd_at i f (map (Rmult c) r) = map (Rmult c) (upd_at i g r).
Proof.
  intros H; revert i; induction r as [|a r IH]; intros [|i]; cbn; [reflexivity..| |].
  - rewrite H; reflexivity.
  - rewrite IH; reflexivity.
Qed.
Lemma upd_row_map j f g (out : list row) : (forall r, f (map (Rmult c) r) = map (Rmult c) (g r)) ->
  upd_row j f (map (map (Rmult c)) out) = map (map (Rmult c)) (upd_row j g out).
Proof.
  intros H; revert j; induction out as [|a r IH]; intros [|j]; cbn; [reflexivity..| |].
  - rewrite H; reflexivity.
  - rewrite IH; reflexivity.
Qed.
Lemma exec_factor v l out : Forall ok_stmt l ->
  fexec A (c * v) l (map (map (Rmult c)) out) = map (map (Rmult c)) (fexec A v l out).
Proof.
  intros H; revert out; induction H as [|s l Hs _ IH]; intros out; [reflexivity|].
  change (fexec A (c * v) l (fexec1 A (c * v) (map (map (Rmult c)) out) s) =
          map (map (Rmult c)) (fexec A v l (fexec1 A v out s))).
  rewrite <- IH. f_equal. unfold fexec1. apply upd_row_map; intros r. apply upd_at_map; intros a.
  unfold ok_stmt, short in Hs. destruct (chain (se s)) as [k|] eqn:E; [|discriminate].
  rewrite (eval_factor v _ k E), <- Hc. f_equal; ring.
Qed.
Lemma loop_factor s xs d t pot :
  fel_loop A (scaled_by c s) xs d t (map (map (Rmult c)) pot) = times c (fel_loop A s xs d t pot).
Proof.
  revert pot; induction s as [|e s IH]; intros pot; [reflexivity|].
  cbn [fel_loop scaled_by map].
  assert (V : volt t (Electrode (ename e) (c * edc e) (c * erf e) (egeom e)) = option_map (Rmult c) (volt t e))
    by (destruct t; reflexivity).
  rewrite V. destruct (volt t e) as [v|]; cbn [option_map]; [|apply IH].
  cbn [egeom]. destruct (Req_EM_T (c * v) 0) as [E|E]; destruct (Req_EM_T v 0) as [E'|E'].
  - apply IH.
  - exfalso. apply Rmult_integral in E as [E|E]; auto.
  - exfalso. apply E. rewrite E'; ring.
  - unfold fpotential. destruct (stmts (egeom e) xs d) as [l|] eqn:El; cbn [bind]; [|reflexivity].
    rewrite exec_factor by (eapply stmts_ok, El). apply IH.
Qed.
Lemma zeros_factor d n : map (map (Rmult c)) (zeros d n) = zeros d n.
Proof.
  unfold zeros. generalize (2 * d + 1)%nat as w; intros w.
  induction n as [|n IH]; cbn; [reflexivity|]. rewrite IH; f_equal.
  clear; induction w as [|w IH]; cbn; [reflexivity|]. rewrite IH, Rmult_0_r; reflexivity.
Qed.
Lemma potential_factor s xs d t :
  felectrical_potential A (scaled_by c s) xs d t = times c (felectrical_potential A s xs d t).
Proof. unfold felectrical_potential. rewrite <- loop_factor, zeros_factor; reflexivity. Qed.
End factor.

Lemma round_neg fexp x : round radix2 fexp ZnearestE (-1 * x) = -1 * round radix2 fexp ZnearestE x.
Proof. replace (-1 * x) with (- x) by ring. rewrite round_NE_opp; ring. Qed.

Lemma round_scale k x :
  round radix2 (FLX_exp 53) ZnearestE (bpow radix2 k * x) = bpow radix2 k * round radix2 (FLX_exp 53) ZnearestE x.
Proof.
  destruct (Req_dec x 0) as [->|Hx].
  { rewrite Rmult_0_r, !round_0 by apply valid_rnd_N. ring. }
  assert (E : cexp radix2 (FLX_exp 53) (bpow radix2 k * x) = (cexp radix2 (FLX_exp 53) x + k)%Z).
  { unfold cexp. rewrite Rmult_comm, mag_mult_bpow by assumption. unfold FLX_exp. lia. }
  unfold round, F2R. cbn [Fnum Fexp]. unfold scaled_mantissa. rewrite E.
  replace (bpow radix2 k * x * bpow radix2 (- (cexp radix2 (FLX_exp 53) x + k)))
    with (x * bpow radix2 (- cexp radix2 (FLX_exp 53) x)).
  - rewrite bpow_plus; ring.
  - rewrite Z.opp_add_distr, bpow_plus.
    assert (B : bpow radix2 k * bpow radix2 (- k) = 1) by (rewrite <- bpow_plus, Z.add_opp_diag_r; reflexivity).
    transitivity (x * bpow radix2 (- cexp radix2 (FLX_exp 53) x) * (bpow radix2 k * bpow radix2 (- k))); [rewrite B|]; ring.
Qed.
Lemma negated pw at2 p s xs d t :
  felectrical_potential (b64 pw at2 p) (scaled_by (-1) s) xs d t =
  times (-1) (felectrical_potential (b64 pw at2 p) s xs d t).
Proof. apply potential_factor; [lra|]. intros x. cbn [b64 rnd]. apply round_neg. Qed.
Lemma scaled pw at2 p k s xs d t :
  felectrical_potential (b64x pw at2 p) (scaled_by (powerRZ 2 k) s) xs d t =
  times (powerRZ 2 k) (felectrical_potential (b64x pw at2 p) s xs d t).
Proof.
  apply potential_factor.
  - apply powerRZ_NOR. lra.
  - intros x. cbn [b64x rnd]. rewrite <- (bpow_powerRZ radix2). apply round_scale.
Qed.
