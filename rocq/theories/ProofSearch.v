From Coq Require Import Permutation FunctionalExtensionality.
From Coquelicot Require Import Coquelicot.
From Verif Require Import Base ModelUtils ModelField ModelSearch SpecTensor SpecField SpecSearch ProofTensor ProofField ProofDeriv ProofSys ProofPseudo ModelExpr.
Open Scope R_scope.
Notation length := List.length.

(** ** assignment *)
Lemma assign_notin dt axis : forall xi x k, ~ In k axis -> assign dt axis xi x k = x k.
Proof.
  induction axis as [|a r IH]; intros xi x k H; cbn [assign]; [reflexivity|].
  cbn in H. rewrite IH by tauto. destruct (Nat.eqb_spec k a); [subst; tauto|reflexivity].
Qed.
Lemma assign_in dt axis : NoDup axis -> forall xi x i, (i < length axis)%nat ->
  assign dt axis xi x (nth i axis 0%nat) = store dt (xi i).
Proof.
  induction 1 as [|a r Ha Hr IH]; intros xi x i Hi; cbn [length] in Hi; [lia|].
  destruct i as [|i]; cbn [assign nth].
  - rewrite assign_notin by assumption. now rewrite Nat.eqb_refl.
  - rewrite IH by lia. reflexivity.
Qed.
Lemma assign_over dt axis : forall xi x x', (forall k, ~ In k axis -> x k = x' k) ->
  forall k, assign dt axis xi x k = assign dt axis xi x' k.
Proof.
  induction axis as [|a r IH]; intros xi x x' H k; cbn [assign]; [apply H; tauto|].
  apply IH. intros j Hj. destruct (Nat.eqb_spec j a); [reflexivity|]. apply H. cbn. intros [E|E]; [congruence|tauto].
Qed.
Lemma assign_over' dt axis xi x x' : (forall k, ~ In k axis -> x k = x' k) ->
  assign dt axis xi x = assign dt axis xi x'.
Proof. intros H. apply functional_extensionality, assign_over, H. Qed.
Lemma assign_replaces axis xi x0 : NoDup axis -> replaces axis xi x0 (assign DFloat axis xi x0).
Proof. intros H. split; intros; [now rewrite assign_in|now apply assign_notin]. Qed.
Lemma replaces_eq axis xi x0 y y' : replaces axis xi x0 y -> replaces axis xi x0 y' -> forall k, y k = y' k.
Proof.
  intros [A B] [A' B'] k. destruct (in_dec Nat.eq_dec k axis) as [H|H].
  - destruct (In_nth _ _ 0%nat H) as (i & Hi & <-). now rewrite A, A'.
  - now rewrite B, B'.
Qed.

Lemma call_keeps pot dt axis coord x q k : ~ In k axis -> fst (call pot dt axis coord x q) k = x k.
Proof. intros H. destruct q; cbn; now apply assign_notin. Qed.
Lemma after_keeps pot dt axis coord history : forall x0 k, ~ In k axis -> after pot dt axis coord x0 history k = x0 k.
Proof.
  unfold after. induction history as [|q r IH]; intros x0 k H; cbn [fold_left]; [reflexivity|].
  rewrite IH by assumption. now apply call_keeps.
Qed.
Lemma value_then_eq pot dt axis coord x0 history xi :
  value_then pot dt axis coord x0 history xi = fun_at pot coord (assign dt axis xi x0).
Proof. unfold value_then. cbn [call snd]. rewrite (assign_over' dt axis xi _ x0); [reflexivity|]. intros; now apply after_keeps. Qed.
Lemma grad_then_eq pot dt axis coord x0 history xi :
  grad_then pot dt axis coord x0 history xi = grad_at pot axis coord coord (assign dt axis xi x0).
Proof. unfold grad_then. cbn [call snd]. rewrite (assign_over' dt axis xi _ x0); [reflexivity|]. intros; now apply after_keeps. Qed.
Lemma hess_then_eq pot dt axis coord x0 history xi :
  hess_then pot dt axis coord x0 history xi = hess_at pot axis coord coord (assign dt axis xi x0).
Proof. unfold hess_then. cbn [call snd]. rewrite (assign_over' dt axis xi _ x0); [reflexivity|]. intros; now apply after_keeps. Qed.

Lemma mdot_ext coord x y : (forall k, (k < 3)%nat -> x k = y k) -> mdot coord x = mdot coord y.
Proof.
  intros H. unfold mdot, mvec, sumn. cbn [seq map sumR fold_right].
  assert (E0 := H 0%nat ltac:(lia)). assert (E1 := H 1%nat ltac:(lia)). assert (E2 := H 2%nat ltac:(lia)).
  rewrite E0, E1, E2. reflexivity.
Qed.
Lemma assign_comp axis xi x0 i t : NoDup axis -> (i < length axis)%nat -> forall k,
  assign DFloat axis (with_comp xi i t) x0 k =
  assign DFloat axis xi x0 k + (t - xi i) * (if (k =? nth i axis 0)%nat then 1 else 0).
Proof.
  intros Hn Hi k. destruct (in_dec Nat.eq_dec k axis) as [H|H].
  - destruct (In_nth _ _ 0%nat H) as (j & Hj & <-). rewrite !assign_in by assumption. cbn [store]. unfold with_comp.
    destruct (Nat.eqb_spec j i) as [->|Hne].
    + rewrite Nat.eqb_refl. ring.
    + destruct (Nat.eqb_spec (nth j axis 0%nat) (nth i axis 0%nat)) as [E|E]; [|ring].
      exfalso. apply Hne. eapply NoDup_nth; eassumption.
  - rewrite !assign_notin by assumption. destruct (Nat.eqb_spec k (nth i axis 0%nat)) as [E|E]; [|ring].
    exfalso. apply H. rewrite E. now apply nth_In.
Qed.
Lemma axes_lt axis i : distinct_axes axis -> (i < length axis)%nat -> (nth i axis 0 < 3)%nat.
Proof. intros [_ H] Hi. rewrite Forall_forall in H. apply H. now apply nth_In. Qed.
Lemma mdot_comp coord axis xi x0 i t : distinct_axes axis -> (i < length axis)%nat ->
  mdot coord (assign DFloat axis (with_comp xi i t) x0) =
  along (mdot coord (assign DFloat axis xi x0)) (fun k => coord k (nth i axis 0%nat)) (t - xi i).
Proof.
  intros Ha Hi. pose proof (axes_lt _ _ Ha Hi) as Hlt. destruct Ha as [Hn _].
  unfold mdot, along, mvec, sumn. cbn [seq map sumR fold_right px py pz].
  rewrite !(assign_comp _ _ _ _ t Hn Hi).
  set (a := nth i axis 0%nat) in *. clearbody a.
  destruct a as [|[|[|a]]]; [..|lia]; cbn [Nat.eqb]; f_equal; ring.
Qed.
Lemma shift_derive (f : R -> R) c l : is_derive f 0 l -> is_derive (fun t => f (t - c)) c l.
Proof.
  intros H. replace l with (1 * l) by ring.
  apply (is_derive_comp f (fun t => t - c) c l 1).
  - now replace (c - c) with 0 by ring.
  - auto_derive; [trivial|ring].
Qed.
Lemma rot1 r (T : tensor) a : rotate_tensor 1 T r [a] = r 0%nat a * T [0%nat] + r 1%nat a * T [1%nat] + r 2%nat a * T [2%nat].
Proof. rewrite rotate_rot by reflexivity. cbn. unfold sum3. ring. Qed.
Lemma rot2 r (T : tensor) a b : rotate_tensor 2 T r [a; b] =
  r 0%nat a * (r 0%nat b * T [0; 0]%nat + r 1%nat b * T [0; 1]%nat + r 2%nat b * T [0; 2]%nat) +
  r 1%nat a * (r 0%nat b * T [1; 0]%nat + r 1%nat b * T [1; 1]%nat + r 2%nat b * T [1; 2]%nat) +
  r 2%nat a * (r 0%nat b * T [2; 0]%nat + r 1%nat b * T [2; 1]%nat + r 2%nat b * T [2; 2]%nat).
Proof. rewrite rotate_rot by reflexivity. cbn. unfold sum3. ring. Qed.

Lemma fun_derive pot axis coord x0 xi i :
  distinct_axes axis -> derivatives_at pot (mdot coord (assign DFloat axis xi x0)) -> (i < length axis)%nat ->
  is_derive (fun t => fun_at pot coord (assign DFloat axis (with_comp xi i t) x0)) (xi i)
    (grad_at pot axis coord coord (assign DFloat axis xi x0) i).
Proof.
  intros Ha [HG _] Hi. unfold fun_at, grad_at. set (p := mdot coord (assign DFloat axis xi x0)) in *.
  eapply (is_derive_ext (fun t => (fun u => pot 0%nat (along p (fun k => coord k (nth i axis 0%nat)) u) []) (t - xi i))).
  - intros t. now rewrite mdot_comp.
  - rewrite rot1. match goal with |- is_derive _ _ ?l => replace l with
      (pot 1%nat p [0%nat] * coord 0%nat (nth i axis 0%nat) + pot 1%nat p [1%nat] * coord 1%nat (nth i axis 0%nat) + pot 1%nat p [2%nat] * coord 2%nat (nth i axis 0%nat)) by ring end.
    apply (shift_derive (fun u => pot 0%nat (along p (fun k => coord k (nth i axis 0%nat)) u) [])). exact (HG (fun k => coord k (nth i axis 0%nat))).
Qed.
Lemma grad_derive pot axis coord x0 xi i j :
  distinct_axes axis -> derivatives_at pot (mdot coord (assign DFloat axis xi x0)) -> (i < length axis)%nat -> (j < length axis)%nat ->
  is_derive (fun t => grad_at pot axis coord coord (assign DFloat axis (with_comp xi i t) x0) j) (xi i)
    (hess_at pot axis coord coord (assign DFloat axis xi x0) i j).
Proof.
  intros Ha [_ HH] Hi Hj. unfold grad_at, hess_at. set (p := mdot coord (assign DFloat axis xi x0)) in *.
  set (a := nth i axis 0%nat). set (b := nth j axis 0%nat).
  eapply (is_derive_ext (fun t => (fun u =>
     coord 0%nat b * pot 1%nat (along p (fun k => coord k a) u) [0%nat] +
     coord 1%nat b * pot 1%nat (along p (fun k => coord k a) u) [1%nat] +
     coord 2%nat b * pot 1%nat (along p (fun k => coord k a) u) [2%nat]) (t - xi i))).
  - intros t. rewrite mdot_comp by assumption. rewrite rot1. reflexivity.
  - apply (shift_derive (fun u => coord 0%nat b * pot 1%nat (along p (fun k => coord k a) u) [0%nat] +
     coord 1%nat b * pot 1%nat (along p (fun k => coord k a) u) [1%nat] +
     coord 2%nat b * pot 1%nat (along p (fun k => coord k a) u) [2%nat])).
    rewrite rot2.
    pose proof (HH 0%nat ltac:(lia) (fun k => coord k a)) as H0.
    pose proof (HH 1%nat ltac:(lia) (fun k => coord k a)) as H1.
    pose proof (HH 2%nat ltac:(lia) (fun k => coord k a)) as H2.
    cbn beta in H0, H1, H2.
    evar_last.
    + apply @is_derive_plus; [apply @is_derive_plus|]; apply is_derive_scal; eassumption.
    + unfold plus; cbn. ring.
Qed.

(** ** minimum *)
Lemma placed_eq coord axis xi x0 y : NoDup axis -> replaces axis xi x0 y ->
  mdot coord (assign DFloat axis xi x0) = mdot coord y.
Proof.
  intros Hn Hy. f_equal. apply functional_extensionality.
  apply (replaces_eq axis xi x0); [now apply assign_replaces|exact Hy].
Qed.
Lemma gradient_matches pot axis coord x0 : distinct_axes axis ->
  forall history history' xi y i, replaces axis xi x0 y -> derivatives_at pot (mdot coord y) -> (i < length axis)%nat ->
  is_derive (fun t => value_then pot DFloat axis coord x0 history (with_comp xi i t)) (xi i)
    (grad_then pot DFloat axis coord x0 history' xi i).
Proof.
  intros Ha h h' xi y i Hy Hd Hi. rewrite <- (placed_eq coord axis xi x0 y (proj1 Ha) Hy) in Hd. rewrite grad_then_eq.
  eapply is_derive_ext; [intros t; symmetry; apply value_then_eq|]. now apply fun_derive.
Qed.
Lemma hessian_matches pot axis coord x0 : distinct_axes axis ->
  forall history history' xi y i j, replaces axis xi x0 y -> derivatives_at pot (mdot coord y) -> (i < length axis)%nat -> (j < length axis)%nat ->
  is_derive (fun t => grad_then pot DFloat axis coord x0 history (with_comp xi i t) j) (xi i)
    (hess_then pot DFloat axis coord x0 history' xi i j).
Proof.
  intros Ha h h' xi y i j Hy Hd Hi Hj. rewrite <- (placed_eq coord axis xi x0 y (proj1 Ha) Hy) in Hd. rewrite hess_then_eq.
  eapply is_derive_ext; [intros t; symmetry; now rewrite grad_then_eq|]. now apply grad_derive.
Qed.
Lemma value_is pot axis coord x0 history xi y : NoDup axis -> replaces axis xi x0 y ->
  value_then pot DFloat axis coord x0 history xi = pot 0%nat (mdot coord y) [].
Proof.
  intros Hn Hy. rewrite value_then_eq. unfold fun_at. f_equal. f_equal. apply functional_extensionality.
  now apply (replaces_eq axis xi x0), Hy; apply assign_replaces.
Qed.
Lemma run_ends pot dt axis coord x0 : forall m x b r, (forall k, ~ In k axis -> x k = x0 k) ->
  ends (fun xi => value_then pot dt axis coord x0 [] xi) (fun xi => grad_then pot dt axis coord x0 [] xi)
       (fun xi => hess_then pot dt axis coord x0 [] xi) m b r ->
  exists x', run_min pot dt axis coord x m = (x', (b, r)) /\ (forall k, ~ In k axis -> x' k = x0 k).
Proof.
  intros m x b r Hx He. revert x Hx. induction He as [b r|xi k b r He IH|xi k b r He IH|xi k b r He IH]; intros x Hx; cbn [run_min call].
  - now exists x.
  - rewrite (assign_over' dt axis xi x x0) by assumption.
    rewrite value_then_eq in IH. apply IH. intros j Hj. now apply assign_notin.
  - rewrite (assign_over' dt axis xi x x0) by assumption.
    rewrite grad_then_eq in IH. apply IH. intros j Hj. now apply assign_notin.
  - rewrite (assign_over' dt axis xi x x0) by assumption.
    rewrite hess_then_eq in IH. apply IH. intros j Hj. now apply assign_notin.
Qed.
Lemma minimum_returns pot axis coord x0 m b r : NoDup axis ->
  ends (fun xi => value_then pot DFloat axis coord x0 [] xi) (fun xi => grad_then pot DFloat axis coord x0 [] xi)
       (fun xi => hess_then pot DFloat axis coord x0 [] xi) (m (take axis x0)) b r ->
  match minimum pot DFloat axis coord x0 m with
  | Ok y => b = true /\ replaces axis r x0 y
  | Raise e => b = false /\ e = ValueError
  end.
Proof.
  intros Hn He. destruct (run_ends pot DFloat axis coord x0 _ x0 b r (fun _ _ => eq_refl) He) as (x' & E & Hk).
  unfold minimum. rewrite E. destruct b; [|now split]. split; [reflexivity|].
  split; intros; [now rewrite assign_in|]. rewrite assign_notin by assumption. now apply Hk.
Qed.
Lemma minimum_keeps pot dt axis coord x0 m y : minimum pot dt axis coord x0 m = Ok y ->
  forall k, ~ In k axis -> y k = x0 k.
Proof.
  unfold minimum. intros E k Hk.
  assert (G : forall m x, fst (run_min pot dt axis coord x m) k = x k).
  { clear - Hk. induction m as [q f IH|b r]; intros x; [|reflexivity]. cbn [run_min].
    destruct (call pot dt axis coord x q) as [x' a] eqn:Ec. rewrite IH.
    rewrite <- (call_keeps pot dt axis coord x q k Hk). now rewrite Ec. }
  specialize (G (m (take axis x0)) x0).
  destruct (run_min pot dt axis coord x0 (m (take axis x0))) as [x [b r]]. cbn in G.
  destruct b; [|discriminate]. injection E as <-. now rewrite assign_notin.
Qed.
(** the start point the minimiser gets *)
Lemma ends_exists F G H m : exists b r, ends F G H m b r.
Proof.
  induction m as [q k IH|b r]; [|now eexists _, _; constructor].
  destruct q as [xi|xi|xi].
  - destruct (IH (AFun (F xi))) as (b & r & E). exists b, r. now constructor.
  - destruct (IH (AGrad (G xi))) as (b & r & E). exists b, r. now constructor.
  - destruct (IH (AHess (H xi))) as (b & r & E). exists b, r. now constructor.
Qed.

(** integers *)
Lemma trunc_half : trunc (/ 2) = 0.
Proof.
  unfold trunc. destruct (Rle_dec 0 (/ 2)) as [H|H]; [|lra].
  assert (E : Int_part (/ 2) = 0%Z); [|now rewrite E].
  unfold Int_part. assert (U : up (/ 2) = 1%Z); [|rewrite U; reflexivity].
  symmetry. apply tech_up; lra.
Qed.
Lemma int_start_refuted : exists pot axis coord x0 m r y, distinct_axes axis /\
  (forall F G H, ends F G H (m (take axis x0)) true r) /\
  minimum pot DInt axis coord x0 m = Ok y /\ (exists i, (i < length axis)%nat /\ y (nth i axis 0%nat) <> r i).
Proof.
  exists (fun _ _ _ => 0), [0%nat], (fun _ _ => 0), (fun _ => 0), (fun _ => Done true (fun _ => / 2)), (fun _ => / 2).
  eexists. split; [|split; [|split; [reflexivity|]]].
  - split; [repeat constructor; cbn; tauto|repeat constructor].
  - intros. constructor.
  - exists 0%nat. split; [cbn; lia|]. cbn [assign nth Nat.eqb store]. rewrite trunc_half. lra.
Qed.
Lemma int_start_truncates pot axis coord x0 m b r : NoDup axis ->
  ends (fun xi => value_then pot DInt axis coord x0 [] xi) (fun xi => grad_then pot DInt axis coord x0 [] xi)
       (fun xi => hess_then pot DInt axis coord x0 [] xi) (m (take axis x0)) b r ->
  match minimum pot DInt axis coord x0 m with
  | Ok y => forall i, (i < length axis)%nat -> y (nth i axis 0%nat) = trunc (r i)
  | Raise e => e = ValueError
  end.
Proof.
  intros Hn He. destruct (run_ends pot DInt axis coord x0 _ x0 b r (fun _ _ => eq_refl) He) as (x' & E & Hk).
  unfold minimum. rewrite E. destruct b; [|reflexivity]. intros i Hi. now rewrite assign_in.
Qed.

(** ** saddle *)
Lemma safter_keeps pot axis coord history : forall x0 k, ~ In k axis -> safter pot axis coord x0 history k = x0 k.
Proof.
  unfold safter. induction history as [|q r IH]; intros x0 k H; cbn [fold_left]; [reflexivity|].
  rewrite IH by assumption. destruct q; cbn; now apply assign_notin.
Qed.
Lemma sfun_eq pot axis coord x0 history xi :
  saddle_fun pot axis coord (safter pot axis coord x0 history) xi =
  (assign DFloat axis xi x0, fun_at pot coord (assign DFloat axis xi x0)).
Proof. unfold saddle_fun. cbn zeta. rewrite (assign_over' DFloat axis xi _ x0); [reflexivity|]. intros; now apply safter_keeps. Qed.
Lemma sgrad_eq pot axis coord x0 history xi :
  saddle_grad pot axis coord (safter pot axis coord x0 history) xi =
  (assign DFloat axis xi x0, grad_at pot axis coord (transp coord) (assign DFloat axis xi x0)).
Proof. unfold saddle_grad. cbn zeta. rewrite (assign_over' DFloat axis xi _ x0); [reflexivity|]. intros; now apply safter_keeps. Qed.
Definition sym3 (r : mat) : Prop := forall a b, (a < 3)%nat -> (b < 3)%nat -> r a b = r b a.
Lemma grad_sym pot axis coord x i : distinct_axes axis -> sym3 coord -> (i < length axis)%nat ->
  grad_at pot axis coord (transp coord) x i = grad_at pot axis coord coord x i.
Proof.
  intros Ha Hs Hi. pose proof (axes_lt _ _ Ha Hi) as Hlt. unfold grad_at. rewrite !rot1. unfold transp.
  rewrite (Hs (nth i axis 0%nat) 0%nat), (Hs (nth i axis 0%nat) 1%nat), (Hs (nth i axis 0%nat) 2%nat) by lia. reflexivity.
Qed.
Lemma saddle_gradient_sym pot axis coord x0 : distinct_axes axis -> sym3 coord ->
  forall history history' xi y i, replaces axis xi x0 y -> derivatives_at pot (mdot coord y) -> (i < length axis)%nat ->
  is_derive (fun t => snd (saddle_fun pot axis coord (safter pot axis coord x0 history) (with_comp xi i t))) (xi i)
    (snd (saddle_grad pot axis coord (safter pot axis coord x0 history') xi) i).
Proof.
  intros Ha Hs h h' xi y i Hy Hd Hi. rewrite <- (placed_eq coord axis xi x0 y (proj1 Ha) Hy) in Hd. rewrite sgrad_eq. cbn [snd]. rewrite grad_sym by assumption.
  eapply is_derive_ext; [intros t; symmetry; now rewrite sfun_eq|]. now apply fun_derive.
Qed.
(** what the code computes for every transformation: the gradient along the
    rows of [coord] instead of its columns *)
Lemma saddle_gradient_is pot axis coord x0 : distinct_axes axis ->
  forall history xi y i, replaces axis xi x0 y -> derivatives_at pot (mdot coord y) -> (i < length axis)%nat ->
  is_derive (fun t => pot 0%nat (along (mdot coord y) (fun k => coord (nth i axis 0%nat) k) t) []) 0
    (snd (saddle_grad pot axis coord (safter pot axis coord x0 history) xi) i).
Proof.
  intros Ha h xi y i Hy Hd Hi. rewrite <- (placed_eq coord axis xi x0 y (proj1 Ha) Hy) in Hd |- *.
  destruct Hd as [Hd _]. rewrite sgrad_eq. cbn [snd]. unfold grad_at. rewrite rot1.
  set (p := mdot coord (assign DFloat axis xi x0)) in *.
  match goal with |- is_derive _ _ ?l => replace l with
   (pot 1%nat p [0%nat] * coord (nth i axis 0%nat) 0%nat + pot 1%nat p [1%nat] * coord (nth i axis 0%nat) 1%nat + pot 1%nat p [2%nat] * coord (nth i axis 0%nat) 2%nat) by (unfold transp; ring) end.
  exact (Hd (fun k => coord (nth i axis 0%nat) k)).
Qed.

(** ** rfo *)
Section RfoProof.
  Variable St : Type.
  Variable fn : St -> cvec -> St * R.
  Variable gr : St -> cvec -> St * cvec.
  Variables (n : nat) (xtol ftol : R) (maxiter : Z) (dx_max : R).
  Variable eigh : mat -> cvec * mat.
  Variable argsort : cvec -> nat -> nat.
  Notation it_ := (rfo_iter St fn gr n xtol ftol maxiter dx_max eigh argsort).
  Notation loop_ := (rfo_loop St fn gr n xtol ftol maxiter dx_max eigh argsort).
  Notation rfo_ := (rfo St fn gr n xtol ftol maxiter dx_max eigh argsort).

  (** an invariant of iterations holds for all shown states *)
  Lemma loop_inv (P : point St -> Prop) : (forall it p p' r, P p -> it_ it p = Some (p', r) -> P p') ->
    forall fuel it ret p, P p -> forall q, In q (fst (loop_ fuel it ret p)) -> P q.
  Proof.
    intros Hi. induction fuel as [|k IH]; intros it ret p Hp q Hq; [destruct Hq|]. cbn [rfo_loop] in Hq.
    destruct ret as [r|]; [destruct Hq as [<-|[]]; exact Hp|].
    destruct (it_ (it + 1)%Z p) as [[p' ret]|] eqn:E; [|destruct Hq as [<-|[]]; exact Hp].
    specialize (IH (it + 1)%Z ret p' (Hi _ _ _ _ Hp E)).
    destruct (loop_ k (it + 1)%Z ret p') as [tr o]. cbn [fst] in *.
    destruct Hq as [<-|Hq]; [exact Hp|]. now apply IH.
  Qed.
  (** consecutive states are related by an iteration *)
  Lemma loop_head fuel it ret p q tr o : loop_ fuel it ret p = (q :: tr, o) -> q = p.
  Proof.
    destruct fuel as [|k]; cbn [rfo_loop]; [discriminate|].
    destruct ret as [r|]; [intros E; now inversion E|].
    destruct (it_ (it + 1)%Z p) as [[p' ret]|] eqn:E; [|intros H; now inversion H].
    destruct (loop_ k (it + 1)%Z ret p') as [tr' o']. intros H; now inversion H.
  Qed.
  Lemma loop_step fuel : forall it ret p a b, consecutive (fst (loop_ fuel it ret p)) a b ->
    exists it' r, it_ it' a = Some (b, r).
  Proof.
    induction fuel as [|k IH]; intros it ret p a b (l1 & l2 & H); cbn [rfo_loop fst] in H.
    - now destruct l1.
    - destruct ret as [r|]. { destruct l1 as [|? [|? ?]]; discriminate H. }
      destruct (it_ (it + 1)%Z p) as [[p' ret]|] eqn:E.
      2:{ destruct l1 as [|? [|? ?]]; discriminate H. }
      destruct (loop_ k (it + 1)%Z ret p') as [tr o] eqn:El. cbn [fst] in H.
      destruct l1 as [|c l1]; cbn [app] in H; injection H as Hp Htr.
      + subst. apply loop_head in El as <-. eauto.
      + subst. apply (IH (it + 1)%Z ret p'). rewrite El. cbn [fst]. exists l1, l2. reflexivity.
  Qed.

  Lemma iter_inv it p p' r : it_ it p = Some (p', r) -> exists h dx,
    ph p = Some h /\ rfo_dx n dx_max eigh argsort (pg p) h = Some dx /\ px_ p' = vadd (px_ p) dx /\
    pf p' = pf p + (snd (fn (pst p) (px_ p')) - pf p) /\
    pst p' = fst (gr (fst (fn (pst p) (px_ p'))) (px_ p')) /\
    pg p' = vadd (pg p) (fun k => snd (gr (fst (fn (pst p) (px_ p'))) (px_ p')) k - pg p k) /\
    ph p' = option_map (fun dh i j => h i j + dh i j)
      (rfo_dh n h dx (fun k => snd (gr (fst (fn (pst p) (px_ p'))) (px_ p')) k - pg p k)) /\
    r = rfo_ret n xtol ftol maxiter it (px_ p) dx (pf p) (snd (fn (pst p) (px_ p')) - pf p).
  Proof.
    unfold rfo_iter. destruct (ph p) as [h|] eqn:Eh; [|discriminate].
    destruct (rfo_dx n dx_max eigh argsort (pg p) h) as [dx|] eqn:Ed; [|discriminate].
    destruct (fn (pst p) (vadd (px_ p) dx)) as [s1 fv] eqn:Ef.
    destruct (gr s1 (vadd (px_ p) dx)) as [s2 gv] eqn:Eg.
    intros H. inversion H; subst. clear H. exists h, dx. cbn [px_ pf pg ph pst].
    rewrite Ef. cbn [fst snd]. rewrite Eg. cbn [fst snd]. tauto.
  Qed.

  Section Pure.
    Variables (F : cvec -> R) (G : cvec -> cvec).
    Hypothesis HF : forall s x, snd (fn s x) = F x.
    Hypothesis HG : forall s x, snd (gr s x) = G x.
    Definition consistent (p : point St) : Prop := pf p = F (px_ p) /\ forall k, pg p k = G (px_ p) k.
    Lemma iter_consistent it p p' r : it_ it p = Some (p', r) -> consistent p'.
    Proof.
      intros H. apply iter_inv in H as (h & dx & _ & _ & _ & Ef & _ & Eg & _).
      split; [rewrite Ef, HF; ring|]. intros k. rewrite Eg. unfold vadd. rewrite HG. ring.
    Qed.
    Lemma start_consistent s x0 h : consistent (rfo_start St fn gr s x0 h).
    Proof.
      unfold rfo_start. destruct (fn s x0) as [s1 f] eqn:Ef. destruct (gr s1 x0) as [s2 g] eqn:Eg.
      split; cbn; [now rewrite <- (HF s x0), Ef|intros k; now rewrite <- (HG s1 x0), Eg].
    Qed.
    Lemma rfo_consistent fuel s x0 h p : In p (fst (rfo_ fuel s x0 h)) -> consistent p.
    Proof.
      apply (loop_inv consistent); [intros; eapply iter_consistent; eassumption|apply start_consistent].
    Qed.
    Lemma rfo_secant fuel s x0 h p p' h' : consecutive (fst (rfo_ fuel s x0 h)) p p' -> ph p' = Some h' ->
      forall i, (i < n)%nat -> mvec n h' (fun k => px_ p' k - px_ p k) i = G (px_ p') i - G (px_ p) i.
    Proof.
      intros Hc Hh' i Hi. assert (Hp : consistent p).
      { apply (rfo_consistent fuel s x0 h). destruct Hc as (l1 & l2 & ->). apply in_elt. }
      destruct (loop_step _ _ _ _ _ _ Hc) as (it' & r & Hit).
      pose proof (iter_consistent _ _ _ _ Hit) as [_ Hg'].
      apply iter_inv in Hit as (h0 & dx & Eh & Ed & Ex & _ & _ & _ & Eph & _).
      rewrite Hh', HG in Eph.
      assert (Edx : (fun k => px_ p' k - px_ p k) = dx).
      { apply functional_extensionality. intros k. rewrite Ex. unfold vadd. ring. }
      rewrite Edx. rewrite <- (proj2 Hp i), <- Hg', Hg'.
      set (dg := fun k => G (px_ p') k - pg p k) in *.
      unfold rfo_dh in Eph.
      set (dp := fun k => dg k - mvec n h0 dx k) in *.
      set (xx := vdot n dx dx) in *. set (px := vdot n dp dx) in *. set (pp := vdot n dp dp) in *.
      unfold is_zero in Eph.
      destruct (Req_EM_T xx 0) as [|Hxx]; [discriminate|]. destruct (Req_EM_T px 0) as [|Hpx]; [discriminate|].
      destruct (Req_EM_T pp 0) as [|Hpp]; [discriminate|]. cbn [orb option_map] in Eph. apply (f_equal (fun o => match o with Some x => x | None => h' end)) in Eph; cbn beta iota in Eph. rewrite Eph. clear Eph.
      assert (E : mvec n (fun i j => h0 i j + (px ^ 2 / (pp * xx) * (outer dp dp i j / px) +
         (1 - px ^ 2 / (pp * xx)) * ((outer dp dx i j + outer dx dp i j) / xx - px * outer dx dx i j / xx ^ 2))) dx i =
         mvec n h0 dx i + (px ^ 2 / (pp * xx) / px * dp i * px + (1 - px ^ 2 / (pp * xx)) * (dp i / xx * xx + dx i / xx * px - px * dx i / xx ^ 2 * xx))).
      { unfold mvec, outer.
        transitivity (sumn n (fun j => h0 i j * dx j) + ((px ^ 2 / (pp * xx) / px * dp i) * vdot n dp dx + (1 - px ^ 2 / (pp * xx)) * ((dp i / xx) * vdot n dx dx + dx i / xx * vdot n dp dx - px * dx i / xx ^ 2 * vdot n dx dx)));
          [|reflexivity].
        unfold vdot. unfold sumn. generalize (seq 0 n) as l. clear - Hxx Hpx Hpp. intros l.
        induction l as [|j l IH]; cbn [map sumR]; [ring|].
        rewrite IH. field. auto. }
      rewrite E. unfold dp at 1 2. unfold dg. field. auto.
    Qed.
  End Pure.
End RfoProof.
Section RfoProof2.
  Variable St : Type.
  Variable fn : St -> cvec -> St * R.
  Variable gr : St -> cvec -> St * cvec.
  Variables (n : nat) (xtol ftol : R) (maxiter : Z) (dx_max : R).
  Variable eigh : mat -> cvec * mat.
  Variable argsort : cvec -> nat -> nat.
  Notation it_ := (rfo_iter St fn gr n xtol ftol maxiter dx_max eigh argsort).
  Notation loop_ := (rfo_loop St fn gr n xtol ftol maxiter dx_max eigh argsort).
  Notation rfo_ := (rfo St fn gr n xtol ftol maxiter dx_max eigh argsort).

  Lemma vdot_scale (a : cvec) c : vdot n (fun k => a k * c) (fun k => a k * c) = c ^ 2 * vdot n a a.
  Proof.
    unfold vdot, sumn. induction (seq 0 n) as [|j l IH]; cbn [map sumR]; [ring|]. rewrite IH. ring.
  Qed.
  Lemma vdot_nonneg (a : cvec) : 0 <= vdot n a a.
  Proof. unfold vdot, sumn. induction (seq 0 n) as [|j l IH]; cbn [map sumR]; [lra|]. nra. Qed.
  Lemma dx_bound g h dx : 0 < dx_max -> rfo_dx n dx_max eigh argsort g h = Some dx -> vnorm n dx <= dx_max.
  Proof.
    intros Hm. unfold rfo_dx. destruct (eigh h) as [l v]. cbv zeta.
    match goal with |- (if ?c then _ else _) = _ -> _ => destruct c; [discriminate|] end.
    match goal with |- context [vnorm n ?d / dx_max] => set (d0 := d) end.
    intros E. apply (f_equal (fun o => match o with Some x => x | None => dx end)) in E; cbn beta iota in E. rewrite <- E.
    set (M := Rmax 1 (vnorm n d0 / dx_max)).
    assert (H1 : 1 <= M) by apply Rmax_l. assert (H2 : vnorm n d0 / dx_max <= M) by apply Rmax_r.
    assert (E2 : vnorm n (fun k => d0 k / M) = vnorm n d0 / M).
    { unfold vnorm. unfold Rdiv at 1 2. rewrite vdot_scale, sqrt_mult; [|apply pow2_ge_0|apply vdot_nonneg].
      rewrite sqrt_pow2; [unfold Rdiv; ring|]. left. apply Rinv_0_lt_compat. lra. }
    change (vnorm n (fun k => d0 k / M) <= dx_max). rewrite E2. apply Rle_div_l; [lra|]. apply Rle_div_l in H2; [|lra]. lra.
  Qed.
  Lemma rfo_step fuel s x0 h p p' : 0 < dx_max -> consecutive (fst (rfo_ fuel s x0 h)) p p' ->
    vnorm n (fun k => px_ p' k - px_ p k) <= dx_max.
  Proof.
    intros Hm Hc. destruct (loop_step _ _ _ _ _ _ _ _ _ _ _ _ _ _ _ _ Hc) as (it' & r & Hit).
    apply iter_inv in Hit as (h0 & dx & _ & Ed & Ex & _).
    replace (fun k => px_ p' k - px_ p k) with dx.
    - eapply dx_bound; eassumption.
    - apply functional_extensionality. intros k. rewrite Ex. unfold vadd. ring.
  Qed.
  Lemma rfo_sym fuel s x0 h p : (forall h0, h = Some h0 -> symmetric_mat n h0) ->
    In p (fst (rfo_ fuel s x0 h)) -> forall h1, ph p = Some h1 -> symmetric_mat n h1.
  Proof.
    intros Hs. apply (loop_inv _ _ _ _ _ _ _ _ _ _ (fun p => forall h1, ph p = Some h1 -> symmetric_mat n h1)).
    - intros it a b r Ha Hit h1 Hb. apply iter_inv in Hit as (h0 & dx & Eh & Ed & Ex & _ & _ & _ & Eph & _).
      specialize (Ha h0 Eh). rewrite Hb in Eph. unfold rfo_dh in Eph.
      match type of Eph with context [if ?c then None else _] => destruct c; [discriminate|] end.
      cbn [option_map] in Eph. apply (f_equal (fun o => match o with Some x => x | None => h1 end)) in Eph; cbn beta iota in Eph.
      rewrite Eph. intros i j Hi Hj. unfold outer. rewrite (Ha i j) by assumption. f_equal. f_equal.
      + f_equal. f_equal. ring.
      + f_equal. f_equal; f_equal; ring.
    - intros h1. unfold rfo_start. destruct (fn s x0) as [s1 f]. destruct (gr s1 x0) as [s2 g]. cbn [ph].
      intros E. injection E as <-. destruct h as [h|]; [now apply Hs|].
      intros i j _ _. now rewrite Nat.eqb_sym.
  Qed.
  Lemma loop_len : (0 < maxiter)%Z -> forall fuel it p, (it <= maxiter)%Z ->
    (Z.of_nat (length (fst (loop_ fuel it None p))) <= maxiter - it + 2)%Z /\
    ((maxiter - it + 2 <= Z.of_nat fuel)%Z -> snd (loop_ fuel it None p) <> Running).
  Proof.
    intros Hm. induction fuel as [|k IH]; intros it p Hit; [cbn [rfo_loop fst snd length]; split; [lia|lia]|].
    cbn [rfo_loop]. destruct (it_ (it + 1)%Z p) as [[p' ret]|] eqn:E.
    2:{ cbn [fst snd length]. split; [lia|discriminate]. }
    apply iter_inv in E as (h0 & dx & _ & _ & _ & _ & _ & _ & _ & Er).
    destruct (Z_le_gt_dec (it + 1) maxiter) as [Hle|Hgt].
    - destruct ret as [r|].
      + destruct k as [|k]; cbn [rfo_loop fst snd length]; split; try lia; discriminate.
      + specialize (IH (it + 1)%Z p' Hle). destruct (loop_ k (it + 1)%Z None p') as [tr o]. cbn [fst snd length] in *.
        split; [lia|]. intros Hf. apply IH. lia.
    - unfold rfo_ret in Er. replace (0 <? maxiter)%Z with true in Er by (symmetry; now apply Z.ltb_lt).
      replace (maxiter <? it + 1)%Z with true in Er by (symmetry; apply Z.ltb_lt; lia). cbn [andb] in Er. subst ret.
      destruct k as [|k]; cbn [rfo_loop fst snd length]; split; try lia; discriminate.
  Qed.
  Lemma loop_status : forall fuel it p tr st, loop_ fuel it None p = (tr, Ended st) ->
    exists l a b, tr = l ++ [a; b] /\
    match st with
    | XTol => small_step n xtol (px_ a) (px_ b)
    | FTol => small_change ftol (pf a) (pf b)
    | Iter => (0 < maxiter)%Z /\ (maxiter + 2 <= Z.of_nat (length tr) + it)%Z
    end.
  Proof.
    induction fuel as [|k IH]; intros it p tr st H; [discriminate|]. cbn [rfo_loop] in H.
    destruct (it_ (it + 1)%Z p) as [[p' ret]|] eqn:E; [|discriminate].
    destruct ret as [r|].
    - destruct k as [|k]; [discriminate|]. cbn [rfo_loop] in H. injection H as <- <-.
      exists [], p, p'. split; [reflexivity|].
      apply iter_inv in E as (h0 & dx & _ & _ & Ex & Ef & _ & _ & _ & Er).
      set (df := snd (fn (pst p) (px_ p')) - pf p) in *.
      assert (Edf : pf p' - pf p = df) by (rewrite Ef; ring).
      assert (Edx : (fun k => px_ p' k - px_ p k) = dx).
      { apply functional_extensionality. intros i. rewrite Ex. unfold vadd. ring. }
      unfold rfo_ret in Er.
      destruct ((0 <? maxiter)%Z && (maxiter <? it + 1)%Z)%bool eqn:Ei.
      { injection Er as ->. apply andb_true_iff in Ei as [E1 E2]. apply Z.ltb_lt in E1, E2. cbn [length]. lia. }
      destruct (Rle_dec (2 * Rabs df) _) as [Hd|_] in Er.
      { injection Er as ->. unfold small_change. rewrite Edf. rewrite Ef. exact Hd. }
      destruct (Rle_dec (2 * vnorm n dx) _) as [Hd|_] in Er; [|discriminate].
      injection Er as ->. unfold small_step. rewrite Edx, Ex. exact Hd.
    - destruct (loop_ k (it + 1)%Z None p') as [tr' o] eqn:El. injection H as <- ->.
      destruct (IH _ _ _ _ El) as (l & a & b & -> & Hst). exists (p :: l), a, b. split; [reflexivity|].
      destruct st; auto. destruct Hst as [H1 H2]. split; [exact H1|]. cbn [length] in *. lia.
  Qed.

  (** the direction of a step *)
  Lemma rfo_direction fuel s x0 h p p' h1 l v : 0 < dx_max -> consecutive (fst (rfo_ fuel s x0 h)) p p' ->
    ph p = Some h1 -> eigh h1 = (l, v) -> (forall k, (k < n)%nat -> argsort l k = k) ->
    orthonormal_columns n v -> forall k, (k < n)%nat ->
    let along_step := sumn n (fun i => v i k * (px_ p' i - px_ p i)) in
    let along_grad := sumn n (fun i => v i k * pg p i) in
    (k = 0%nat -> 0 <= along_step * along_grad /\ (along_grad <> 0 -> 0 < along_step * along_grad)) /\
    (k <> 0%nat -> along_step * along_grad <= 0 /\ (along_grad <> 0 -> along_step * along_grad < 0)).
  Proof.
    intros Hm Hc Hh He Ha Ho k Hk.
    destruct (loop_step _ _ _ _ _ _ _ _ _ _ _ _ _ _ _ _ Hc) as (it' & r & Hit).
    apply iter_inv in Hit as (h0 & dx & Eh & Ed & Ex & _).
    rewrite Hh in Eh. injection Eh as <-.
    replace (fun i => v i k * (px_ p' i - px_ p i)) with (fun i => v i k * dx i).
    2:{ apply functional_extensionality. intros i. rewrite Ex. unfold vadd. ring. }
    clear Ex Hc. unfold rfo_dx in Ed. rewrite He in Ed. cbv zeta in Ed.
    set (gl := fun j => sumn n (fun k => v k j * pg p k)).
    set (lmg := fun k : nat => / 2 * (if (k =? 0)%nat then -1 else 1) * (Rabs (l k) + sqrt (l k ^ 2 + 4 * gl k ^ 2))).
    assert (sum_ext' : forall f g, (forall i, (i < n)%nat -> f i = g i) -> sumn n f = sumn n g).
    { intros f g E. unfold sumn. f_equal. apply map_ext_in. intros i Hi. apply E. apply in_seq in Hi. lia. }
    assert (Egl : forall j, sumn n (fun k0 => v (argsort l k0) j * pg p k0) = gl j).
    { intros j. apply sum_ext'. intros i Hi. now rewrite Ha. }
    destruct (zero_in n _ || is_zero dx_max)%bool eqn:Ez in Ed; [discriminate|].
    apply orb_false_iff in Ez as [Ez _].
    assert (Hl0 : lmg k <> 0).
    { intros E0. unfold zero_in in Ez. assert (F : existsb (fun k0 => if Req_EM_T (/ 2 * (if (k0 =? 0)%nat then -1 else 1) *
        (Rabs (l (argsort l k0)) + sqrt (l (argsort l k0) ^ 2 + 4 * sumn n (fun k1 : nat => v (argsort l k1) k0 * pg p k1) ^ 2))) 0 then true else false) (seq 0 n) = true).
      { apply existsb_exists. exists k. split; [apply in_seq; lia|]. rewrite Egl, Ha by exact Hk.
        destruct (Req_EM_T _ 0) as [|X]; [reflexivity|]. exfalso. now apply X. }
      rewrite F in Ez. discriminate. }
    apply (f_equal (fun o => match o with Some x => x | None => dx end)) in Ed; cbn beta iota in Ed.
    match type of Ed with (fun k => _ / ?m) = _ => set (M := m) in Ed end.
    assert (HM : 0 < M). { pose proof (Rmax_l 1 (vnorm n (fun k => - sumn n (fun j => v (argsort l k) j *
      (sumn n (fun k1 => v (argsort l k1) j * pg p k1) / (/ 2 * (if (j =? 0)%nat then -1 else 1) * (Rabs (l (argsort l j)) + sqrt (l (argsort l j) ^ 2 + 4 * sumn n (fun k1 : nat => v (argsort l k1) j * pg p k1) ^ 2)))))) / dx_max)). unfold M. lra. }
    clearbody M.
    assert (Edx : forall i, (i < n)%nat -> dx i = - sumn n (fun j => v i j * (gl j / lmg j)) / M).
    { intros i Hi. rewrite <- Ed. f_equal. f_equal. apply sum_ext'. intros j Hj. rewrite Egl, !Ha by assumption. reflexivity. }
    assert (Es : sumn n (fun i => v i k * dx i) = - (gl k / lmg k) / M).
    { transitivity (sumn n (fun i => v i k * (- sumn n (fun j => v i j * (gl j / lmg j)) / M))).
      { apply sum_ext'. intros i Hi. now rewrite Edx. }
      transitivity (- / M * sumn n (fun i => sumn n (fun j => v i k * v i j * (gl j / lmg j)))).
      { transitivity (sumn n (fun i => - / M * sumn n (fun j => v i k * v i j * (gl j / lmg j)))).
        - apply sum_ext'. intros i Hi.
          assert (E : sumn n (fun j => v i k * v i j * (gl j / lmg j)) = v i k * sumn n (fun j => v i j * (gl j / lmg j))).
          { unfold sumn. induction (seq 0 n) as [|j c IHc]; cbn [map sumR]; [ring|]. rewrite IHc. ring. }
          rewrite E. unfold Rdiv. ring.
        - exact (sum_scal (seq 0 n) (- / M) (fun i => sumn n (fun j => v i k * v i j * (gl j / lmg j)))). }
      assert (Esw : sumn n (fun i => sumn n (fun j => v i k * v i j * (gl j / lmg j))) = sumn n (fun j => sumn n (fun i => v i k * v i j * (gl j / lmg j)))).
      { unfold sumn. exact (sum_swap (seq 0 n) (seq 0 n) (fun i j => v i k * v i j * (gl j / lmg j))). }
      rewrite Esw.
      assert (E2 : sumn n (fun j => sumn n (fun i => v i k * v i j * (gl j / lmg j))) = sumn n (fun j => (if (k =? j)%nat then 1 else 0) * (gl j / lmg j))).
      { apply sum_ext'. intros j Hj. rewrite <- (Ho k j Hk Hj). unfold sumn. induction (seq 0 n) as [|i q IH]; cbn [map sumR]; [ring|]. rewrite IH. ring. }
      rewrite E2.
      assert (E3 : sumn n (fun j => (if (k =? j)%nat then 1 else 0) * (gl j / lmg j)) = gl k / lmg k).
      { unfold sumn. assert (G : forall a m, sumR (map (fun j => (if (k =? j)%nat then 1 else 0) * (gl j / lmg j)) (seq a m)) = if ((a <=? k) && (k <? a + m))%nat%bool then gl k / lmg k else 0).
        { intros a m. revert a. induction m as [|m IHm]; intros a; cbn [seq map sumR].
          - destruct (Nat.leb_spec a k), (Nat.ltb_spec k (a + 0)); cbn [andb]; try reflexivity; lia.
          - rewrite IHm. destruct (Nat.eqb_spec k a) as [<-|Hne].
            + destruct (Nat.leb_spec (S k) k), (Nat.leb_spec k k), (Nat.ltb_spec k (k + S m)); cbn [andb]; try lia; ring.
            + destruct (Nat.leb_spec (S a) k), (Nat.leb_spec a k), (Nat.ltb_spec k (a + S m)), (Nat.ltb_spec k (S a + m)); cbn [andb]; try lia; ring. }
        rewrite G. destruct (Nat.leb_spec 0 k), (Nat.ltb_spec k (0 + n)); cbn [andb]; try lia. reflexivity. }
      rewrite E3. unfold Rdiv. ring. }
    cbn zeta. rewrite Es. change (sumn n (fun i => v i k * pg p i)) with (gl k).
    assert (Hsq : 0 <= Rabs (l k) + sqrt (l k ^ 2 + 4 * gl k ^ 2)).
    { pose proof (Rabs_pos (l k)). pose proof (sqrt_pos (l k ^ 2 + 4 * gl k ^ 2)). lra. }
    replace (- (gl k / lmg k) / M * gl k) with (- (gl k ^ 2) * / lmg k * / M) by (unfold Rdiv; ring).
    assert (HMi : 0 < / M) by now apply Rinv_0_lt_compat.
    assert (Hg2 : 0 <= gl k ^ 2) by apply pow2_ge_0.
    assert (Hg3 : gl k <> 0 -> 0 < gl k ^ 2). { intros X. assert (gl k * gl k <> 0) by (intros Y; apply X; nra). cbn. nra. }
    split; intros Hz.
    - assert (Hneg : lmg k < 0). { unfold lmg in Hl0 |- *. rewrite Hz in *. cbn [Nat.eqb] in *. nra. }
      assert (Hi : / lmg k < 0) by now apply Rinv_lt_0_compat.
      split; [|intros X; specialize (Hg3 X)].
      + apply Rmult_le_pos; [nra|lra].
      + apply Rmult_lt_0_compat; [nra|lra].
    - assert (Hneg : 0 < lmg k). { unfold lmg in Hl0 |- *. destruct (Nat.eqb_spec k 0); [contradiction|]. nra. }
      assert (Hi : 0 < / lmg k) by now apply Rinv_0_lt_compat.
      split; [|intros X; specialize (Hg3 X)].
      + assert (0 <= (gl k ^ 2 * / lmg k) * / M) by (apply Rmult_le_pos; nra). lra.
      + assert (0 < (gl k ^ 2 * / lmg k) * / M) by (apply Rmult_lt_0_compat; [|lra]; apply Rmult_lt_0_compat; lra). lra.
  Qed.
End RfoProof2.

(** ** saddle: result *)
Lemma saddle_result pot axis coord xtol ftol maxiter dx_max eigh argsort fuel x0 x p :
  saddle pot axis coord xtol ftol maxiter dx_max eigh argsort fuel DFloat x0 = Some (Ok (x, p)) ->
  (forall k, ~ In k axis -> x k = x0 k) /\ p = pot 0%nat (mdot coord x) [].
Proof.
  unfold saddle. set (r := rfo _ _ _ _ _ _ _ _ _ _ _ _ _ _). intros H.
  assert (I : forall q, In q (fst r) -> pst q = assign DFloat axis (px_ q) x0 /\ pf q = fun_at pot coord (pst q)).
  { apply (loop_inv _ _ _ _ _ _ _ _ _ _ (fun q => pst q = assign DFloat axis (px_ q) x0 /\ pf q = fun_at pot coord (pst q))).
    - intros it a b st [Ha _] Hit. apply iter_inv in Hit as (h0 & dx & _ & _ & _ & Ef & Es & _).
      assert (Es' : pst b = assign DFloat axis (px_ b) x0).
      { rewrite Es. cbn [saddle_fun saddle_grad fst]. unfold saddle_grad, saddle_fun. cbn [fst].
        apply assign_over'. intros k Hk. rewrite assign_notin by assumption. rewrite Ha. now apply assign_notin. }
      split; [exact Es'|]. rewrite Ef, Es'. unfold saddle_fun. cbn [snd]. rewrite Ha.
      rewrite (assign_over' DFloat axis (px_ b) (assign DFloat axis (px_ a) x0) x0); [ring|].
      intros k Hk. now apply assign_notin.
    - unfold rfo_start, saddle_fun, saddle_grad. cbn [pst px_ pf].
      assert (E : assign DFloat axis (take axis x0) (assign DFloat axis (take axis x0) x0) = assign DFloat axis (take axis x0) x0).
      { apply assign_over'. intros k Hk. now apply assign_notin. }
      now rewrite E. }
  destruct r as [trace o]. cbn [fst] in I.
  assert (L : match last (map Some trace) None with Some q => In q trace | None => True end).
  { clear. induction trace as [|a t IH]; [exact Logic.I|]. destruct t as [|b t]; [now left|].
    change (last (map Some (a :: b :: t)) None) with (last (map Some (b :: t)) None).
    destruct (last (map Some (b :: t)) None); [now right|exact Logic.I]. }
  assert (K : exists q, In q trace /\ pst q = x /\ pf q = p).
  { destruct o as [| |[]]; try discriminate H; destruct (last (map Some trace) None) as [q|]; try discriminate H;
      exists q; injection H as <- <-; auto. }
  destruct K as (q & Hq & <- & <-). destruct (I q Hq) as [E1 E2]. split; [|exact E2].
  intros k Hk. rewrite E1. now apply assign_notin.
Qed.
Lemma last_two {A} (l : list A) a b : last (map Some (l ++ [a; b])) None = Some b.
Proof. rewrite map_app. cbn [map]. replace (map Some l ++ [Some a; Some b]) with ((map Some l ++ [Some a]) ++ [Some b]) by now rewrite <- app_assoc. apply last_last. Qed.
Lemma saddle_converged pot axis coord xtol ftol maxiter dx_max eigh argsort fuel x0 x p :
  let search := rfo cvec (saddle_fun pot axis coord) (saddle_grad pot axis coord) (length axis) xtol ftol maxiter dx_max eigh argsort
                  fuel x0 (take axis x0) (Some (saddle_hess pot axis coord x0)) in
  saddle pot axis coord xtol ftol maxiter dx_max eigh argsort fuel DFloat x0 = Some (Ok (x, p)) ->
  exists l a b, fst search = l ++ [a; b] /\ pst b = x /\ pf b = p /\
  (small_step (length axis) xtol (px_ a) (px_ b) \/ small_change ftol (pf a) (pf b)).
Proof.
  intros search H. unfold saddle in H. fold search in H. destruct search as [trace o] eqn:E. unfold search, rfo in E.
  destruct o as [| |st]; try discriminate H.
  destruct (loop_status _ _ _ _ _ _ _ _ _ _ _ _ _ _ _ E) as (l & a & b & -> & C). rewrite last_two in H. exists l, a, b. split; [reflexivity|].
  destruct st; try discriminate H; injection H as <- <-; auto.
Qed.
Lemma saddle_gives_up pot axis coord xtol ftol maxiter dx_max eigh argsort fuel x0 :
  let search := rfo cvec (saddle_fun pot axis coord) (saddle_grad pot axis coord) (length axis) xtol ftol maxiter dx_max eigh argsort
                  fuel x0 (take axis x0) (Some (saddle_hess pot axis coord x0)) in
  (snd search = Ended Iter <-> saddle pot axis coord xtol ftol maxiter dx_max eigh argsort fuel DFloat x0 = Some (Raise ValueError)) /\
  (snd search = Ended FTol \/ snd search = Ended XTol <->
   exists x p, saddle pot axis coord xtol ftol maxiter dx_max eigh argsort fuel DFloat x0 = Some (Ok (x, p))).
Proof.
  intros search. unfold saddle. fold search. destruct search as [trace o] eqn:E. unfold search, rfo in E. cbn [snd].
  destruct o as [| |st].
  - split; split; try (intros [H|H]; discriminate); try discriminate. intros (x & p & H). discriminate.
  - split; split; try (intros [H|H]; discriminate); try discriminate. intros (x & p & H). discriminate.
  - destruct (loop_status _ _ _ _ _ _ _ _ _ _ _ _ _ _ _ E) as (l & a & b & -> & C). rewrite last_two.
    destruct st; split; split; try (intros [H|H]; discriminate); try discriminate; try tauto; eauto. intros (x & p & H). discriminate.
Qed.
Lemma saddle_int pot axis coord xtol ftol maxiter dx_max eigh argsort fuel x0 :
  saddle pot axis coord xtol ftol maxiter dx_max eigh argsort fuel DInt x0 = Some (Raise TypeError).
Proof. reflexivity. Qed.

(** ** an ideal cover plane at height 1 *)
Definition cov : list electrode := [Electrode "cover" 1 0 (ECover 1)].
Lemma cov_wf : forall e, In e cov -> well_formed (egeom e).
Proof. intros e [<-|[]]. exact I. Qed.
Lemma cov_pseudo c d idx p : (d <= 4)%nat -> pseudo_entry c cov d idx p = 0.
Proof.
  intros Hd. assert (E : cov = scale_rf 0 cov) by (unfold cov, scale_rf; cbn [map ename edc erf egeom]; now rewrite Rmult_0_l).
  rewrite E, pseudo_scale_volts by (try exact cov_wf; exact Hd). ring.
Qed.
Lemma cov_pot c d idx p : (d <= 4)%nat -> idx_of_order d idx ->
  sys_pot c cov d p idx = expanded d (tab (2 * d + 1) (fun i => sys_term cov TDc d i p)) idx.
Proof.
  intros Hd Hi. unfold sys_pot. destruct (total_parts c cov p d cov_wf Hd) as (dc & rf & tot & _ & _ & E & Et & Edc & Erf).
  rewrite E, Et, Edc, Erf, cov_pseudo by assumption. rewrite Rplus_0_r. apply tensor_entry_eq; [exact cov_wf|lia|exact Hi].
Qed.
Ltac in_order := split; [reflexivity|repeat (apply Forall_cons; [lia|]); apply Forall_nil].
Lemma cov0 c p : sys_pot c cov 0 p [] = pz p.
Proof. rewrite cov_pot; [|lia|in_order]. cbn. unfold sys_term, sum_over. cbn. lra. Qed.
Lemma cov1 c p k : (k < 3)%nat -> sys_pot c cov 1 p [k] = if (k =? 2)%nat then 1 else 0.
Proof.
  intros Hk. rewrite cov_pot; [|lia|in_order]. destruct k as [|[|[|k]]]; [..|lia]; cbn; unfold sys_term, sum_over; cbn; lra.
Qed.
Lemma cov2 c p k j : (k < 3)%nat -> (j < 3)%nat -> sys_pot c cov 2 p [k; j] = 0.
Proof.
  intros Hk Hj. rewrite cov_pot; [|lia|in_order].
  assert (E : forall i, sys_term cov TDc 2%nat i p = 0) by (intros i; unfold sys_term, sum_over; cbn; lra).
  destruct k as [|[|[|k]]]; [..|lia]; (destruct j as [|[|[|j]]]; [..|lia]); cbn; rewrite ?E; lra.
Qed.
Lemma cov_derivatives c p : derivatives_at (sys_pot c cov) p.
Proof.
  split; [|intros j Hj]; intros u.
  - apply (is_derive_ext (fun t => pz p + t * u 2%nat)). { intros t. now rewrite cov0. }
    rewrite !cov1 by lia. cbn [Nat.eqb]. auto_derive; [trivial|ring].
  - apply (is_derive_ext (fun t => if (j =? 2)%nat then 1 else 0)). { intros t. now rewrite cov1. }
    rewrite !cov2 by lia. replace (0 * u 0%nat + 0 * u 1%nat + 0 * u 2%nat) with 0 by ring. apply @is_derive_const.
Qed.
(** quarter turn about the x axis *)
Definition turn : mat := fun a b =>
  match a, b with 0%nat, 0%nat => 1 | 1%nat, 2%nat => -1 | 2%nat, 1%nat => 1 | _, _ => 0 end.
Lemma turn_orthogonal : orthogonal turn.
Proof.
  intros a b Ha Hb. destruct a as [|[|[|a]]]; [..|lia]; (destruct b as [|[|[|b]]]; [..|lia]);
    cbv [mmul transpose turn delta3 Nat.eqb]; split; lra.
Qed.
Lemma axes012 : distinct_axes [0; 1; 2]%nat.
Proof.
  split.
  - repeat (apply NoDup_cons; [cbn; lia|]). apply NoDup_nil.
  - repeat (apply Forall_cons; [lia|]). apply Forall_nil.
Qed.
Lemma saddle_refuted : exists c s coord axis x0 xi i l, orthogonal coord /\ distinct_axes axis /\ (i < length axis)%nat /\
  (forall e, In e s -> well_formed (egeom e)) /\ (forall p, derivatives_at (sys_pot c s) p) /\
  forall history history',
  is_derive (fun t => snd (saddle_fun (sys_pot c s) axis coord (safter (sys_pot c s) axis coord x0 history) (with_comp xi i t))) (xi i) l /\
  snd (saddle_grad (sys_pot c s) axis coord (safter (sys_pot c s) axis coord x0 history') xi) i = - l /\ l <> 0.
Proof.
  exists 1, cov, turn, [0; 1; 2]%nat, (fun _ => 0), (fun _ => 0), 1%nat, 1.
  split; [exact turn_orthogonal|]. split; [exact axes012|]. split; [cbn; lia|]. split; [exact cov_wf|].
  split; [apply cov_derivatives|]. intros h h'. split; [|split; [|lra]].
  - eapply is_derive_ext; [intros t; symmetry; now rewrite sfun_eq|]. cbn [snd].
    pose proof (fun_derive (sys_pot 1 cov) [0; 1; 2]%nat turn (fun _ => 0) (fun _ => 0) 1 axes012 (cov_derivatives 1 _) ltac:(cbn; lia)) as D.
    assert (Eg : grad_at (sys_pot 1 cov) [0; 1; 2]%nat turn turn (assign DFloat [0; 1; 2]%nat (fun _ => 0) (fun _ => 0)) 1%nat = 1).
    { unfold grad_at. rewrite rot1, !cov1 by lia. cbn. lra. }
    rewrite Eg in D. exact D.
  - rewrite sgrad_eq. cbn [snd]. unfold grad_at. rewrite rot1, !cov1 by lia. cbn. lra.
Qed.

(** ** trajectory *)
Lemma tafter_keeps tpot axis history : forall x0 k, ~ In k axis -> tafter tpot axis x0 history k = x0 k.
Proof.
  unfold tafter. induction history as [|q r IH]; intros x0 k H; cbn [fold_left]; [reflexivity|].
  rewrite IH by assumption. cbn. now apply assign_notin.
Qed.
Lemma accel_is tpot axis x0 history t q y i : NoDup axis -> replaces axis q x0 y ->
  snd (ddx tpot axis (tafter tpot axis x0 history) t q) i = tpot (vec_p3 y) t [nth i axis 0%nat].
Proof.
  intros Hn Hy. cbn [ddx snd]. rewrite (assign_over' DFloat axis q _ x0) by (intros; now apply tafter_keeps).
  assert (E := replaces_eq axis q x0 _ _ (assign_replaces axis q x0 Hn) Hy).
  unfold vec_p3. now rewrite !E.
Qed.
Section Traj.
  Variable tpot : p3 -> R -> tensor.
  Variables (axis : list nat) (dt t1 : R).
  Variable integ : R -> R -> cvec -> cvec -> integrator.
  Definition pure_accel (x0 : cvec) (t : R) (q : cvec) : cvec := snd (ddx tpot axis x0 t q).
  Lemma run_integrates x0 : forall i x x' p q, (forall k, ~ In k axis -> x k = x0 k) ->
    run_integ tpot axis x i = (x', p, q) ->
    integrates (pure_accel x0) i p q /\ (forall k, ~ In k axis -> x' k = x0 k).
  Proof.
    induction i as [t q k IH|p q]; intros x x' p' q' Hx E; cbn [run_integ] in E.
    - destruct (ddx tpot axis x t q) as [x2 f] eqn:Ed.
      assert (E2 : ddx tpot axis x t q = ddx tpot axis x0 t q).
      { unfold ddx. now rewrite (assign_over' DFloat axis q x x0) by assumption. }
      assert (Hf : f = pure_accel x0 t q) by (unfold pure_accel; now rewrite <- E2, Ed).
      subst f. apply IH in E.
      + destruct E as [E1 E3]. split; [now constructor|exact E3].
      + intros j Hj. rewrite E2 in Ed. unfold ddx in Ed. injection Ed as <-. now apply assign_notin.
    - injection E as <- <- <-. split; [constructor|exact Hx].
  Qed.
  Notation loop_ := (traj_loop tpot axis dt t1 integ).
  Definition tme (e : R * cvec * cvec) : R := fst (fst e).
  Definition pos_ (e : R * cvec * cvec) : cvec := snd (fst e).
  Definition spd (e : R * cvec * cvec) : cvec := snd e.
  Lemma loop_times fuel : forall x0 t p q l fin d, loop_ fuel x0 t p q = (l, fin) ->
    (forall i, (i < length l)%nat -> tme (nth i l d) = t + INR (S i) * dt /\ t + INR i * dt < t1) /\
    (fin = true -> t1 <= t + INR (length l) * dt) /\ (length l <= fuel)%nat.
  Proof.
    induction fuel as [|k IH]; intros x0 t p q l fin d E; cbn [traj_loop] in E.
    - injection E as <- <-. split; [cbn; lia|]. split; [discriminate|cbn; lia].
    - destruct (Rlt_dec t t1) as [Ht|Ht].
      + destruct (run_integ tpot axis x0 (integ t (t + dt) p q)) as [[x' p'] q'].
        destruct (loop_ k x' (t + dt) p' q') as [r fin'] eqn:El. injection E as <- <-.
        destruct (IH _ _ _ _ _ _ d El) as (H1 & H2 & H3). split; [|split].
        * intros [|i] Hi; cbn [nth length] in *.
          { cbn [tme fst]. unfold tme; cbn [fst INR]. split; lra. }
          { destruct (H1 i ltac:(lia)) as [A B]. rewrite A. rewrite !S_INR in *. split; lra. }
        * intros Hf. specialize (H2 Hf). cbn [length]. rewrite S_INR. lra.
        * cbn [length]. lia.
      + injection E as <- <-. split; [cbn; lia|]. split; [cbn; lra|cbn; lia].
  Qed.
  Lemma loop_chain fuel x0 : forall x t p q l fin, (forall k, ~ In k axis -> x k = x0 k) -> loop_ fuel x t p q = (l, fin) ->
    forall i d, (i < length l)%nat ->
    integrates (pure_accel x0)
      (match i with O => integ t (t + dt) p q
       | S j => integ (tme (nth j l d)) (tme (nth j l d) + dt) (spd (nth j l d)) (pos_ (nth j l d)) end)
      (spd (nth i l d)) (pos_ (nth i l d)).
  Proof.
    induction fuel as [|k IH]; intros x t p q l fin Hx E i d Hi; cbn [traj_loop] in E.
    - injection E as <- <-. cbn in Hi. lia.
    - destruct (Rlt_dec t t1) as [Ht|Ht]; [|injection E as <- <-; cbn in Hi; lia].
      destruct (run_integ tpot axis x (integ t (t + dt) p q)) as [[x' p'] q'] eqn:Er.
      destruct (loop_ k x' (t + dt) p' q') as [r fin'] eqn:El. injection E as <- <-.
      destruct (run_integrates x0 _ _ _ _ _ Hx Er) as [Hi1 Hx'].
      destruct i as [|i]; [exact Hi1|]. cbn [length nth] in *.
      specialize (IH _ _ _ _ _ _ Hx' El i d ltac:(lia)). destruct i as [|i]; exact IH.
  Qed.
  Lemma loop_ends : 0 < dt -> forall m x0 t p q fuel, t1 <= t + INR m * dt -> (m < fuel)%nat ->
    snd (loop_ fuel x0 t p q) = true.
  Proof.
    intros Hd. induction m as [|m IH]; intros x0 t p q fuel Ht Hf; (destruct fuel as [|fuel]; [lia|]); cbn [traj_loop].
    - destruct (Rlt_dec t t1) as [H|H]; [cbn in Ht; lra|reflexivity].
    - destruct (Rlt_dec t t1) as [H|H]; [|reflexivity].
      destruct (run_integ tpot axis x0 (integ t (t + dt) p q)) as [[x' p'] q'].
      specialize (IH x' (t + dt) p' q' fuel). rewrite S_INR in Ht. specialize (IH ltac:(lra) ltac:(lia)).
      destruct (loop_ fuel x' (t + dt) p' q') as [r fin']. exact IH.
  Qed.
End Traj.
Lemma traj_times tpot axis dt t1 integ x0 v0 t0 fuel :
  exists l fin, trajectory tpot axis dt t1 integ true x0 v0 t0 fuel = Ok (l, fin) /\
  (forall i d, (i < length l)%nat -> tme (nth i l d) = t0 + INR (S i) * dt) /\
  (forall i, (i < length l)%nat -> t0 + INR i * dt < t1) /\
  (fin = true -> t1 <= t0 + INR (length l) * dt).
Proof.
  unfold trajectory. destruct (traj_loop tpot axis dt t1 integ fuel x0 t0 (take axis v0) (take axis x0)) as [l fin] eqn:E.
  exists l, fin. split; [reflexivity|].
  destruct (loop_times _ _ _ _ _ _ _ _ _ _ _ _ (0, fun _ => 0, fun _ => 0) E) as (H1 & H2 & _).
  split; [|split; [|exact H2]].
  - intros i d Hi. now destruct (loop_times _ _ _ _ _ _ _ _ _ _ _ _ d E) as (H & _ & _); apply H.
  - intros i Hi. now apply H1.
Qed.
Lemma traj_ends tpot axis dt t1 integ x0 v0 t0 : 0 < dt ->
  exists N, forall fuel, (N <= fuel)%nat -> exists l, trajectory tpot axis dt t1 integ true x0 v0 t0 fuel = Ok (l, true).
Proof.
  intros Hd. destruct (nfloor_ex (Rmax 0 ((t1 - t0) / dt)) (Rmax_l _ _)) as (m & _ & Hm).
  exists (S (S m)). intros fuel Hf. unfold trajectory.
  pose proof (loop_ends tpot axis dt t1 integ Hd (S m) x0 t0 (take axis v0) (take axis x0) fuel) as H.
  destruct (traj_loop tpot axis dt t1 integ fuel x0 t0 (take axis v0) (take axis x0)) as [l fin].
  exists l. cbn [snd] in H. rewrite H; [reflexivity| |lia].
  pose proof (Rmax_r 0 ((t1 - t0) / dt)) as H2. rewrite S_INR.
  assert (H3 : (t1 - t0) / dt < INR m + 1) by lra.
  apply Rlt_div_l in H3; [|exact Hd]. lra.
Qed.
Lemma traj_chain tpot axis dt t1 integ x0 v0 t0 fuel l fin :
  trajectory tpot axis dt t1 integ true x0 v0 t0 fuel = Ok (l, fin) -> forall i d, (i < length l)%nat ->
  integrates (pure_accel tpot axis x0)
    (match i with O => integ t0 (t0 + dt) (take axis v0) (take axis x0)
     | S j => integ (tme (nth j l d)) (tme (nth j l d) + dt) (spd (nth j l d)) (pos_ (nth j l d)) end)
    (spd (nth i l d)) (pos_ (nth i l d)).
Proof.
  unfold trajectory. intros E. injection E as E. intros i d Hi. eapply loop_chain; [|exact E|exact Hi]. reflexivity.
Qed.
Lemma traj_lists tpot axis dt t1 integ x0 v0 t0 fuel :
  trajectory tpot axis dt t1 integ false x0 v0 t0 fuel = Raise TypeError.
Proof. reflexivity. Qed.

Lemma sys_tpot_is s p t k : (forall e, In e s -> well_formed (egeom e)) -> (k < 3)%nat ->
  sys_tpot s p t [k] = tensor_entry s TDc 1 [k] p + cos t * tensor_entry s TRf 1 [k] p.
Proof.
  intros W Hk. destruct (time_spec_expanded s [p] 1%nat t W ltac:(lia)) as (pot & E & Hl & H).
  unfold sys_tpot. rewrite E. destruct pot as [|r [|? ?]]; cbn in Hl; try lia.
  specialize (H 0%nat [k] ltac:(cbn; lia) ltac:(in_order)). cbn [nth at_] in H. unfold at_ in H. cbn [nth] in H.
  rewrite <- H. unfold tensor_of. destruct k as [|[|[|k]]]; [..|lia]; reflexivity.
Qed.
Lemma accel_system s axis x0 history t q y i : distinct_axes axis -> replaces axis q x0 y -> (i < length axis)%nat ->
  (forall e, In e s -> well_formed (egeom e)) ->
  snd (ddx (sys_tpot s) axis (tafter (sys_tpot s) axis x0 history) t q) i =
  tensor_entry s TDc 1 [nth i axis 0%nat] (vec_p3 y) + cos t * tensor_entry s TRf 1 [nth i axis 0%nat] (vec_p3 y).
Proof.
  intros Ha Hy Hi W. rewrite (accel_is _ _ _ _ _ _ y) by (try exact Hy; apply Ha).
  apply sys_tpot_is; [exact W|now apply axes_lt].
Qed.
Lemma cov_entry p k : (k < 3)%nat -> tensor_entry cov TDc 1 [k] p = if (k =? 2)%nat then 1 else 0.
Proof.
  intros Hk. rewrite tensor_entry_eq; [|exact cov_wf|lia|in_order].
  destruct k as [|[|[|k]]]; [..|lia]; cbn; unfold sys_term, sum_over; cbn; lra.
Qed.
Lemma cov_entry_rf p k : (k < 3)%nat -> tensor_entry cov TRf 1 [k] p = 0.
Proof.
  intros Hk. rewrite tensor_entry_eq; [|exact cov_wf|lia|in_order].
  destruct k as [|[|[|k]]]; [..|lia]; cbn; unfold sys_term, sum_over; cbn; lra.
Qed.
Lemma accel_refuted : exists s axis x0 q y i t, distinct_axes axis /\ (forall e, In e s -> well_formed (egeom e)) /\
  replaces axis q x0 y /\ (i < length axis)%nat /\
  snd (ddx (sys_tpot s) axis x0 t q) i <>
  - (tensor_entry s TDc 1 [nth i axis 0%nat] (vec_p3 y) + cos t * tensor_entry s TRf 1 [nth i axis 0%nat] (vec_p3 y)).
Proof.
  exists cov, [0; 1; 2]%nat, (fun _ => 0), (fun _ => 0), (fun _ => 0), 2%nat, 0.
  assert (Hr : replaces [0; 1; 2]%nat (fun _ => 0) (fun _ => 0) (fun _ => 0)) by (split; reflexivity).
  split; [exact axes012|]. split; [exact cov_wf|]. split; [exact Hr|]. split; [cbn; lia|].
  pose proof (accel_system cov [0; 1; 2]%nat (fun _ => 0) [] 0 (fun _ => 0) (fun _ => 0) 2 axes012 Hr ltac:(cbn; lia) cov_wf) as E.
  cbn [tafter fold_left] in E. unfold tafter in E. cbn [fold_left] in E. rewrite E. cbn [nth].
  rewrite cov_entry, cov_entry_rf by lia. cbn [Nat.eqb]. lra.
Qed.

(** ** modes *)
Lemma permutes_lt n i : permutes n i -> forall k, (k < n)%nat -> (i k < n)%nat.
Proof.
  intros H k Hk. assert (I : In (i k) (map i (seq 0 n))) by (apply in_map, in_seq; lia).
  apply (Permutation_in _ H) in I. apply in_seq in I. lia.
Qed.
Lemma permutes_inj n i : permutes n i -> forall j k, (j < n)%nat -> (k < n)%nat -> i j = i k -> j = k.
Proof.
  intros H j k Hj Hk E.
  assert (N : NoDup (map i (seq 0 n))). { eapply Permutation_NoDup; [apply Permutation_sym, H|apply seq_NoDup]. }
  pose proof (proj1 (NoDup_nth (map i (seq 0 n)) (i 0%nat)) N j k) as M. rewrite map_length, seq_length in M. apply M; try assumption.
  rewrite !map_nth. now rewrite !seq_nth by assumption.
Qed.
Lemma modes_sorted eigh argsort h n ew ev : sorts n (fst (eigh h)) (argsort (fst (eigh h))) -> eigen_basis n h (fst (eigh h)) (snd (eigh h)) ->
  modes eigh argsort h true = (ew, ev) ->
  eigen_basis n h ew ev /\ ascending_upto n ew /\
  exists i, permutes n i /\ forall k, ew k = fst (eigh h) (i k) /\ forall r, ev r k = snd (eigh h) r (i k).
Proof.
  intros Hs [He Ho] E. unfold modes in E. destruct (eigh h) as [l v]. cbn [fst snd] in *. injection E as <- <-.
  destruct Hs as [Hp Ha]. split; [split|split; [exact Ha|]].
  - intros k i Hk Hi. apply He; [now apply permutes_lt|exact Hi].
  - intros k j Hk Hj. rewrite Ho by now apply permutes_lt.
    destruct (Nat.eqb_spec k j) as [->|Hne]; [now rewrite Nat.eqb_refl|].
    destruct (Nat.eqb_spec (argsort l k) (argsort l j)) as [E|E]; [|reflexivity].
    exfalso. apply Hne. eapply permutes_inj; eassumption.
  - exists (argsort l). split; [exact Hp|]. intros k. split; reflexivity.
Qed.
Lemma modes_unsorted eigh argsort h : modes eigh argsort h false = eigh h.
Proof. unfold modes. now destruct (eigh h). Qed.

(** tighter: truncation and the start *)
Lemma trunc_toward v : exists n : Z, trunc v = IZR n /\ 0 <= IZR n * v /\ Rabs (IZR n) <= Rabs v < Rabs (IZR n) + 1.
Proof.
  assert (P : forall x, 0 <= x -> 0 <= IZR (Int_part x) <= x /\ x < IZR (Int_part x) + 1).
  { intros x Hx. destruct (base_Int_part x) as [A B]. assert (C : (-1 < Int_part x)%Z) by (apply lt_IZR; lra). assert (0 <= IZR (Int_part x)) by (apply IZR_le; lia). lra. }
  unfold trunc. destruct (Rle_dec 0 v) as [H|H].
  - exists (Int_part v). destruct (P v H) as [A B]. rewrite !Rabs_pos_eq by lra. split; [reflexivity|]. split; [apply Rmult_le_pos; lra|lra].
  - exists (- Int_part (- v))%Z. destruct (P (- v) ltac:(lra)) as [A B]. rewrite opp_IZR. split; [reflexivity|]. split.
    + replace (- IZR (Int_part (- v)) * v) with (IZR (Int_part (- v)) * (- v)) by ring. apply Rmult_le_pos; lra.
    + rewrite Rabs_Ropp, (Rabs_pos_eq (IZR _)), (Rabs_left v) by lra. lra.
Qed.
Lemma int_start_toward pot axis coord x0 m b r y : NoDup axis ->
  ends (fun xi => value_then pot DInt axis coord x0 [] xi) (fun xi => grad_then pot DInt axis coord x0 [] xi)
       (fun xi => hess_then pot DInt axis coord x0 [] xi) (m (take axis x0)) b r ->
  minimum pot DInt axis coord x0 m = Ok y ->
  forall i, (i < length axis)%nat -> exists n : Z, y (nth i axis 0%nat) = IZR n /\ 0 <= IZR n * r i /\ Rabs (IZR n) <= Rabs (r i) < Rabs (IZR n) + 1.
Proof. intros N E M i Hi. pose proof (int_start_truncates pot axis coord x0 m b r N E) as H. rewrite M in H. rewrite (H i Hi). apply trunc_toward. Qed.
Lemma start_is_x0 pot axis coord x0 y : NoDup axis -> minimum pot DFloat axis coord x0 (fun xi => Done true xi) = Ok y -> forall k, y k = x0 k.
Proof.
  intros N E k. destruct (in_dec Nat.eq_dec k axis) as [I|I]; [|exact (minimum_keeps pot DFloat axis coord x0 _ y E k I)].
  unfold minimum in E. cbn [run_min] in E. injection E as <-. destruct (In_nth axis k 0%nat I) as (i & Hi & <-). rewrite assign_in by assumption. reflexivity.
Qed.
