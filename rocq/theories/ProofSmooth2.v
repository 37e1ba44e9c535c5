From Verif Require Import Base ModelField ModelGrid ModelTrans ModelLayout ModelSmooth SpecSmooth ProofSmooth.
Open Scope R_scope.
Notation length := List.length.

Lemma straight_false pts tol i : (0 < i)%nat -> (i + 1 < length pts)%nat -> edge_ok pts (i - 1) -> edge_ok pts i ->
  ~ turns_less pts tol i -> t_ pts tol i = false.
Proof. intros A B C D H. destruct (t_ pts tol i) eqn:E; [|reflexivity]. exfalso. apply H. apply t_inner; auto. Qed.

Lemma fit_describes pts smoothing straight corner tol k : closed pts -> edges_ok pts ->
  describes pts smoothing straight corner tol k (the_fit pts smoothing straight corner tol k).
Proof.
  intros Hc He. assert (E : forall i, (i + 1 < length pts)%nat -> edge_ok pts i) by exact He.
  constructor; try reflexivity.
  - cbn. now rewrite !map_length, seq_length.
  - intros i Hi. rewrite nth_u by exact Hi. now apply u_spec.
  - intros i H0 H1 H2. rewrite nth_w by lia. unfold w_.
    assert (t_ pts tol i = true) as -> by (apply t_inner; auto; apply E; lia).
    rewrite Bool.andb_false_r. now destruct corner, straight.
  - intros i H0 H1 H2 ->. rewrite nth_w by lia. unfold w_.
    rewrite straight_false by (auto; apply E; lia). now destruct straight.
  - intros i c H0 H1 H2 -> H3. rewrite nth_w by lia. unfold w_.
    rewrite (straight_false pts tol i) by (auto; try lia; apply E; lia). rewrite before_pos, after_small by lia. rewrite Bool.andb_true_r.
    assert ((t_ pts tol (i - 1) || t_ pts tol (i + 1))%bool = true) as ->; [|reflexivity].
    apply Bool.orb_true_iff. destruct H3 as [H3|H3]; [left|right]; (apply t_inner; [lia|lia|apply E; lia|apply E; lia|exact H3]).
  - intros i H0 H1 H2 H3. rewrite nth_w by lia. unfold w_.
    rewrite (straight_false pts tol i) by (auto; try lia; apply E; lia). rewrite before_pos, after_small by lia.
    unfold neighbour_turns_less in H3.
    rewrite (straight_false pts tol (i - 1)) by (try lia; try (apply E; lia); tauto).
    rewrite (straight_false pts tol (i + 1)) by (try lia; try (apply E; lia); tauto).
    cbn. now destruct straight, corner.
Qed.

Lemma smooth_fit {T} (splprep : fit -> T * Z) knots_of splev pts smoothing straight corner tol k knots :
  closed pts -> edges_ok pts ->
  exists f, describes pts smoothing straight corner tol k f /\
    smooth splprep knots_of splev pts smoothing straight corner tol k knots =
      (if (snd (splprep f) <=? 0)%Z
       then Ok (splev (fst (splprep f)) match knots with None => middle k (knots_of (fst (splprep f))) | Some m => linspace 0 1 m end)
       else Raise AssertionError).
Proof.
  intros Hc He. exists (the_fit pts smoothing straight corner tol k). split; [now apply fit_describes|].
  rewrite smooth_closed by exact Hc. destruct (splprep _) as [tck ier]. reflexivity.
Qed.

Lemma smooth_not_closed {T} (splprep : fit -> T * Z) knots_of splev pts smoothing straight corner tol k knots :
  pts <> [] -> ~ closed pts -> smooth splprep knots_of splev pts smoothing straight corner tol k knots = Raise AssertionError.
Proof. intros Hn Hc. apply smooth_open; [exact Hn|]. intros E. apply Hc. now split. Qed.

Lemma path_strict pts : edges_ok pts -> forall i j, (i < j < length pts)%nat -> path_length pts i < path_length pts j.
Proof.
  intros He i j [H Hj]. assert (A : path_length pts i < path_length pts (S i)).
  { cbn [path_length]. assert (edge_ok pts i) as D by (apply He; lia). unfold edge_ok in D.
    replace (i + 1)%nat with (S i) in D by lia. pose proof (dist_pos _ _ D). lra. }
  pose proof (path_length_mono pts (S i) j ltac:(lia)). lra.
Qed.
Lemma parameters pts smoothing straight corner tol k f : describes pts smoothing straight corner tol k f -> edges_ok pts -> (2 <= length pts)%nat ->
  nth 0 (f_u f) 0 = 0 /\ nth (length pts - 1) (f_u f) 0 = 1 /\
  forall i j, (i < j < length pts)%nat -> nth i (f_u f) 0 < nth j (f_u f) 0.
Proof.
  intros D He Hn. pose proof (path_strict pts He 0 (length pts - 1) ltac:(lia)) as P. cbn [path_length] in P.
  split; [|split].
  - rewrite (d_u _ _ _ _ _ _ _ D) by lia. cbn [path_length]. field. lra.
  - rewrite (d_u _ _ _ _ _ _ _ D) by lia. field. lra.
  - intros i j H. rewrite !(d_u _ _ _ _ _ _ _ D) by lia. pose proof (path_strict pts He i j H).
    apply Rmult_lt_compat_r; [now apply Rinv_0_lt_compat|exact H0].
Qed.

Lemma right_turn pts smoothing s tol k i delta f :
  describes pts smoothing (Some s) None tol k f -> edges_ok pts -> (0 < i)%nat -> (i + 1 < length pts)%nat ->
  0 < delta -> tol <= 2 * PI - delta ->
  turn (vertex pts (i - 1)) (vertex pts i) (vertex pts (i + 1)) (2 * PI - delta) -> nth i (f_w f) 0 = 1.
Proof.
  intros D He H0 H1 Hd Ht T. apply (d_plain _ _ _ _ _ _ _ D); auto. intros (theta & T' & L).
  assert (E1 : edge_ok pts (i - 1)) by (apply He; lia). assert (E2 : edge_ok pts i) by (apply He; lia). unfold edge_ok in *.
  replace (i - 1 + 1)%nat with i in E1 by lia.
  pose proof (turn_unique _ _ _ _ _ E1 E2 T T'). lra.
Qed.

Lemma first_weight pts smoothing s tol k theta : closed pts -> edges_ok pts -> (2 <= length pts)%nat ->
  heads (vertex pts 0) (vertex pts 1) theta ->
  nth 0 (f_w (the_fit pts smoothing (Some s) None tol k)) 0 = if Rlt_dec theta tol then s else 1.
Proof.
  intros Hc He Hn (R & C & S). rewrite nth_w by lia. unfold w_.
  assert (E : edge_ok pts 0) by (apply He; lia). destruct (Rlt_dec theta tol) as [L|L].
  - assert (t_ pts tol 0 = true) as -> by (apply t_first; auto; exists theta; auto). reflexivity.
  - destruct (t_ pts tol 0) eqn:T; [|reflexivity]. exfalso. apply t_first in T; auto. destruct T as (th & R' & L' & C' & S').
    apply L. rewrite (angle_unique2 theta th R R'); [exact L'| |].
    + unfold edge_ok in E. cbn [plus] in E. pose proof (dist_pos _ _ E). apply Rmult_eq_reg_r with (dist (vertex pts 0) (vertex pts 1)); [congruence|lra].
    + unfold edge_ok in E. cbn [plus] in E. pose proof (dist_pos _ _ E). apply Rmult_eq_reg_r with (dist (vertex pts 0) (vertex pts 1)); [congruence|lra].
Qed.
Lemma smooth_start {T} (splprep : fit -> T * Z) knots_of splev pts smoothing s tol k knots theta :
  closed pts -> edges_ok pts -> (2 <= length pts)%nat -> heads (vertex pts 0) (vertex pts 1) theta ->
  exists f, describes pts smoothing (Some s) None tol k f /\ nth 0 (f_w f) 0 = (if Rlt_dec theta tol then s else 1) /\
    smooth splprep knots_of splev pts smoothing (Some s) None tol k knots =
      (if (snd (splprep f) <=? 0)%Z
       then Ok (splev (fst (splprep f)) match knots with None => middle k (knots_of (fst (splprep f))) | Some m => linspace 0 1 m end)
       else Raise AssertionError).
Proof.
  intros Hc He Hn H. exists (the_fit pts smoothing (Some s) None tol k). split; [now apply fit_describes|].
  split; [now apply first_weight|]. rewrite smooth_closed by exact Hc. destruct (splprep _) as [tck ier]. reflexivity.
Qed.

(** ** Polygons.smooth *)
Section All.
Variable sm : list p2 -> res (list p2).
Lemma collect_ok rs ls : collect_rings sm rs = Ok ls <-> Forall2 (fun r l => sm r = Ok l) rs ls.
Proof.
  revert ls; induction rs as [|r rs IH]; intros ls; cbn.
  - split; [intros [= <-]; constructor|intros H; inversion H; reflexivity].
  - split.
    + destruct (sm r) as [l|e] eqn:E; cbn; [|discriminate]. destruct (collect_rings sm rs) as [l'|e] eqn:F; cbn; [|discriminate].
      intros [= <-]. constructor; [exact E|]. now apply IH.
    + intros H. inversion H as [|? l ? l' A B]; subst. rewrite A. cbn. apply IH in B. rewrite B. reflexivity.
Qed.
Lemma list_kept qs ps : smooth_list sm qs = Ok ps <-> kept sm qs ps.
Proof.
  revert ps; induction qs as [|q qs IH]; intros ps.
  - cbn. split; [intros [= <-]; constructor|intros H; inversion H; reflexivity].
  - cbn [smooth_list]. unfold smooth_polygon. split.
    + destruct (collect_rings sm (exterior q :: interiors q)) as [ls|e] eqn:E; cbn [bind]; [|discriminate].
      apply collect_ok in E. inversion E as [|? l ? l' A B]; subst.
      destruct (Nat.leb_spec 3 (length l)) as [L|L]; cbn [bind].
      * destruct (smooth_list sm qs) as [b|e] eqn:F; cbn [bind]; [|discriminate]. intros [= <-]. cbn.
        apply kept_keep; auto. now apply IH.
      * destruct (smooth_list sm qs) as [b|e] eqn:F; cbn [bind]; [|discriminate]. intros [= <-]. cbn.
        apply kept_drop with (e := l) (ints := l'); auto. now apply IH.
    + intros H. inversion H as [|? ? e ints ps' A L B K|? ? e ints ps' A L B K]; subst.
      * assert (C : collect_rings sm (exterior q :: interiors q) = Ok (e :: ints)) by (apply collect_ok; now constructor).
        rewrite C. cbn [bind]. apply IH in K. destruct (Nat.leb_spec 3 (length e)); [|lia]. cbn [bind]. rewrite K. reflexivity.
      * assert (C : collect_rings sm (exterior q :: interiors q) = Ok (e :: ints)) by (apply collect_ok; now constructor).
        rewrite C. cbn [bind]. apply IH in K. destruct (Nat.leb_spec 3 (length e)); [lia|]. cbn [bind]. rewrite K. reflexivity.
Qed.
Lemma all_kept self out : smooth_all sm self = Ok out <->
  Forall2 (fun a b => fst b = fst a /\ exists ps, snd b = Multi ps /\ kept sm (geoms (snd a)) ps) self out.
Proof.
  revert out; induction self as [|[name m] self IH]; intros out; cbn [smooth_all].
  - split; [intros [= <-]; constructor|intros H; inversion H; reflexivity].
  - split.
    + destruct (smooth_list sm (geoms m)) as [ps|e] eqn:E; cbn [bind]; [|discriminate].
      destruct (smooth_all sm self) as [o|e] eqn:F; cbn [bind]; [|discriminate]. intros [= <-].
      constructor; [|now apply IH]. cbn. split; [reflexivity|]. exists ps. split; [reflexivity|]. now apply list_kept.
    + intros H. inversion H as [|? [n' s'] ? o A B]; subst. cbn in A. destruct A as (-> & ps & -> & K).
      apply list_kept in K. rewrite K. cbn [bind]. apply IH in B. rewrite B. reflexivity.
Qed.
Lemma collect_raise rs e : collect_rings sm rs = Raise e <->
  exists before r after, rs = before ++ r :: after /\ sm r = Raise e /\ Forall (fun r => exists l, sm r = Ok l) before.
Proof.
  induction rs as [|r rs IH]; cbn.
  - split; [discriminate|]. intros (b & r & a & H & _). destruct b; discriminate.
  - destruct (sm r) as [l|e'] eqn:E; cbn [bind].
    + split.
      * destruct (collect_rings sm rs) as [ls|e'] eqn:F; cbn [bind]; [discriminate|]. intros [= ->].
        destruct (proj1 IH eq_refl) as (b & r' & a & -> & R & A). exists (r :: b), r', a. split; [reflexivity|]. split; [exact R|]. constructor; [eauto|exact A].
      * intros (b & r' & a & H & R & A). destruct b as [|r0 b]; cbn in H; injection H as -> ->; [congruence|].
        inversion A; subst. rewrite (proj2 IH); [reflexivity|]. exists b, r', a. auto.
    + split.
      * intros [= ->]. exists [], r, rs. auto.
      * intros (b & r' & a & H & R & A). destruct b as [|r0 b]; cbn in H; injection H as -> ->; [congruence|].
        inversion A as [|? ? [l Hl] ?]; subst. congruence.
Qed.
Lemma collect_app rs rs' : collect_rings sm (rs ++ rs') = bind (collect_rings sm rs) (fun a => bind (collect_rings sm rs') (fun b => Ok (a ++ b))).
Proof.
  induction rs as [|r rs IH]; cbn; [now destruct (collect_rings sm rs')|].
  destruct (sm r); cbn; [|reflexivity]. rewrite IH. destruct (collect_rings sm rs); cbn; [|reflexivity]. now destruct (collect_rings sm rs').
Qed.
Definition as_rings (q : polygon) : list (list p2) := exterior q :: interiors q.
(** the same computation, without its value *)
Definition unit_of {A} (r : res A) : res unit := match r with Ok _ => Ok tt | Raise e => Raise e end.
Lemma unit_bind {A B} (r : res A) (f : A -> res B) (g : A -> res unit) :
  (forall a, r = Ok a -> unit_of (f a) = g a) -> unit_of (bind r f) = bind r g.
Proof. intros H. destruct r; cbn; auto. Qed.
Lemma list_unit qs : unit_of (smooth_list sm qs) = unit_of (collect_rings sm (flat_map as_rings qs)).
Proof.
  induction qs as [|q qs IH]; [reflexivity|]. cbn [smooth_list flat_map]. rewrite collect_app. unfold smooth_polygon. unfold as_rings at 1.
  destruct (collect_rings sm (exterior q :: interiors q)) as [ls|e'] eqn:E; cbn [bind]; [|reflexivity].
  apply collect_ok in E. inversion E as [|? l ? l' A B]; subst.
  assert (exists x, (if (3 <=? length l)%nat then Ok [Polygon l (filter (fun l => (3 <=? length l)%nat) l')] else Ok []) = Ok x) as [x ->]
    by (destruct (3 <=? length l)%nat; eauto).
  cbn [bind]. destruct (smooth_list sm qs) as [b|e1], (collect_rings sm (flat_map as_rings qs)) as [c|e2]; cbn in *; congruence.
Qed.
Lemma all_unit self : unit_of (smooth_all sm self) = unit_of (collect_rings sm (rings self)).
Proof.
  induction self as [|[name m] self IH]; [reflexivity|]. cbn [smooth_all]. unfold rings. cbn [flat_map snd]. fold (rings self).
  rewrite collect_app. pose proof (list_unit (geoms m)) as L. unfold as_rings in L.
  destruct (smooth_list sm (geoms m)) as [ps|e], (collect_rings sm (flat_map _ (geoms m))) as [c|e1]; cbn in *; try congruence.
  destruct (smooth_all sm self), (collect_rings sm (rings self)); cbn in *; congruence.
Qed.
Lemma all_raise self e : smooth_all sm self = Raise e <->
  exists before r after, rings self = before ++ r :: after /\ sm r = Raise e /\ Forall (fun r => exists l, sm r = Ok l) before.
Proof.
  rewrite <- collect_raise. pose proof (all_unit self) as U.
  destruct (smooth_all sm self), (collect_rings sm (rings self)); cbn in U; split; congruence.
Qed.
Lemma filter_all (l : list (list p2)) : Forall (fun r => (3 <= length r)%nat) l -> filter (fun l => (3 <=? length l)%nat) l = l.
Proof. induction 1 as [|r l H _ IH]; [reflexivity|]. cbn [filter]. destruct (Nat.leb_spec 3 (length r)); [|lia]. now rewrite IH. Qed.
Lemma list_id qs : (forall q r, In q qs -> In r (exterior q :: interiors q) -> (3 <= length r)%nat /\ sm r = Ok r) -> kept sm qs qs.
Proof.
  induction qs as [|q qs IH]; intros H; [constructor|].
  assert (E : q = Polygon (exterior q) (filter (fun l => (3 <=? length l)%nat) (interiors q))).
  { rewrite filter_all; [now destruct q|]. apply Forall_forall. intros r Hr. apply (H q r); [now left|now right]. }
  rewrite E at 2. apply kept_keep.
  - apply (H q); now left.
  - apply (H q); now left.
  - assert (F : forall r, In r (interiors q) -> sm r = Ok r) by (intros r Hr; apply (H q r); [now left|now right]).
    revert F. generalize (interiors q). intros l. induction l as [|a l IHl]; intros F; constructor; [apply F; now left|]. apply IHl. intros r Hr. apply F. now right.
  - apply IH. intros q' r Hq Hr. apply (H q' r); [now right|exact Hr].
Qed.
Lemma all_id self : (forall r, In r (rings self) -> (3 <= length r)%nat /\ sm r = Ok r) ->
  smooth_all sm self = Ok (map (fun np => (fst np, Multi (geoms (snd np)))) self).
Proof.
  intros H. apply all_kept. induction self as [|[name m] self IH]; [constructor|]. cbn [map]. constructor.
  - cbn. split; [reflexivity|]. exists (geoms m). split; [reflexivity|]. apply list_id. intros q r Hq Hr. apply H.
    unfold rings. cbn [flat_map snd]. apply in_or_app. left. apply in_flat_map. exists q. auto.
  - apply IH. intros r Hr. apply H. unfold rings. cbn [flat_map]. apply in_or_app. right. exact Hr.
Qed.
End All.
