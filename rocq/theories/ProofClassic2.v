From Verif Require Import Base ModelUtils ModelField ModelCons ModelClassic SpecTensor SpecField SpecCons SpecClassic ProofClassic.
Open Scope R_scope.
Notation length := List.length.

Lemma shaped_f m p : shaped m p -> forallb (fun a => (length (fv p a) =? m)%nat) (seq 0 3) = true.
Proof.
  intros (_ & H & _). cbn [seq forallb]. rewrite !H by lia. rewrite Nat.eqb_refl. reflexivity.
Qed.
Lemma shaped_c m p : shaped m p ->
  forallb (fun ab => (length (cv p (fst ab) (snd ab)) =? m)%nat) (list_prod (seq 0 3) (seq 0 3)) = true.
Proof.
  intros (_ & _ & H). cbn [seq list_prod map app forallb fst snd]. rewrite !H by lia. rewrite Nat.eqb_refl. reflexivity.
Qed.
Definition forget_f (ov : bool) (p : pots) : pots :=
  if ov then Pots (p0 p) (fun a => f0 p a * 0) (c0 p) (pv p) (fv p) (cv p) else p.
Definition forget_c (ov : bool) (p : pots) : pots :=
  if ov then Pots (p0 p) (f0 p) (fun a b => c0 p a b * 0) (pv p) (fv p) (cv p) else p.
Lemma forget_f_total ov p v a : f0 (forget_f ov p) a + dot (fv (forget_f ov p) a) v = total_force ov p v a.
Proof. unfold total_force, offset, forget_f. destruct ov; cbn [f0 fv]; [ring|reflexivity]. Qed.
Lemma forget_c_total ov p v a b : c0 (forget_c ov p) a b + dot (cv (forget_c ov p) a b) v = total_curvature ov p v a b.
Proof. unfold total_curvature, offset, forget_c. destruct ov; cbn [c0 cv]; [ring|reflexivity]. Qed.
Lemma forget_f_again ov p v a : total_force ov (forget_f ov p) v a = total_force ov p v a.
Proof. unfold total_force, offset, forget_f. destruct ov; reflexivity. Qed.
Lemma forget_c_again ov p v a b : total_curvature ov (forget_c ov p) v a b = total_curvature ov p v a b.
Proof. unfold total_curvature, offset, forget_c. destruct ov; reflexivity. Qed.
Lemma forget_f_shaped m ov p : shaped m p -> shaped m (forget_f ov p).
Proof. intros H. unfold forget_f. destruct ov; exact H. Qed.
Lemma forget_c_shaped m ov p : shaped m p -> shaped m (forget_c ov p).
Proof. intros H. unfold forget_c. destruct ov; exact H. Qed.

Lemma force_ok m ov b index st V :
  (forall k, (k < length st)%nat -> shaped m (nth k st no_pots)) -> indices_ok (length st) index ->
  (fulfils V (snd (constraints 0 false (single_index index (force_single m ov (Some b) None)) st)) <->
   forall k a, selected (length st) index k -> (a < 3)%nat ->
     Rabs (total_force ov (nth k st no_pots) (nth k V []) a) <= b a).
Proof.
  intros HS HI.
  rewrite (index_says (force_single m ov (Some b) None) false (shaped m)
     (fun k p V => forall a, (a < 3)%nat -> Rabs (total_force ov p (nth k V []) a) <= b a)); [| |exact HS|exact HI].
  - split; [intros H k a Hk; exact (H k Hk a)|intros H k Hk a; exact (H k a Hk)].
  - intros k p Hp. unfold force_single. rewrite (shaped_f m p Hp). fold (forget_f ov p). cbn [bind fst snd].
    set (vs := [VFn _]). destruct (yields_says false vs) as (its & Y & HY); [discriminate|].
    exists (forget_f ov p), vs, its. split; [reflexivity|]. split; [exact Y|]. split; [|split].
    + intros V'. rewrite HY. unfold vs. clear Y HY. cbn [seq map map2 val fval says]. split.
      * intros H a Ha. assert (E : Rabs (total_force ov p (nth k V' []) a) - b a <= 0); [|lra].
        eapply H; [left; reflexivity|]. cbn [val fval]. rewrite !forget_f_total.
        destruct a as [|[|[|a]]]; [| | |lia]; cbn [In]; auto.
      * intros H v x [<-|[]] Hx. cbn [val fval] in Hx. rewrite !forget_f_total in Hx.
        destruct Hx as [<-|[<-|[<-|[]]]]; [specialize (H 0%nat ltac:(lia))|specialize (H 1%nat ltac:(lia))|specialize (H 2%nat ltac:(lia))]; lra.
    + apply forget_f_shaped, Hp.
    + intros j V'. split; intros H a Ha; specialize (H a Ha); rewrite forget_f_again in *; exact H.
Qed.
Lemma force_zero_ok m ov index st V :
  (forall k, (k < length st)%nat -> shaped m (nth k st no_pots)) -> indices_ok (length st) index ->
  (fulfils V (snd (constraints 0 true (single_index index (force_single m ov None None)) st)) <->
   forall k a, selected (length st) index k -> (a < 3)%nat -> total_force ov (nth k st no_pots) (nth k V []) a = 0).
Proof.
  intros HS HI.
  rewrite (index_says (force_single m ov None None) true (shaped m)
     (fun k p V => forall a, (a < 3)%nat -> total_force ov p (nth k V []) a = 0)); [| |exact HS|exact HI].
  - split; [intros H k a Hk; exact (H k Hk a)|intros H k Hk a; exact (H k a Hk)].
  - intros k p Hp. unfold force_single. rewrite (shaped_f m p Hp). fold (forget_f ov p). cbn [bind fst snd].
    set (vs := [VFn _]). destruct (yields_says true vs) as (its & Y & HY); [intros _; repeat constructor|].
    exists (forget_f ov p), vs, its. split; [reflexivity|]. split; [exact Y|]. split; [|split].
    + intros V'. rewrite HY. unfold vs. clear Y HY. cbn [seq map map2 val fval says]. split.
      * intros H a Ha. eapply H; [left; reflexivity|]. cbn [val fval]. rewrite !forget_f_total.
        destruct a as [|[|[|a]]]; [| | |lia]; cbn [In]; auto.
      * intros H v x [<-|[]] Hx. cbn [val fval] in Hx. rewrite !forget_f_total in Hx.
        destruct Hx as [<-|[<-|[<-|[]]]]; apply H; lia.
    + apply forget_f_shaped, Hp.
    + intros j V'. split; intros H a Ha; specialize (H a Ha); rewrite forget_f_again in *; exact H.
Qed.
Lemma curvature_ok m ov cmin cmax index st V :
  (forall l, cmin = Some l -> length l = 6%nat) -> (forall l, cmax = Some l -> length l = 6%nat) ->
  (forall k, (k < length st)%nat -> shaped m (nth k st no_pots)) -> indices_ok (length st) index ->
  (fulfils V (snd (constraints 0 false (single_index index (curvature_single m ov cmin cmax None)) st)) <->
   forall k i, selected (length st) index k -> (i < 6)%nat ->
     within (option_map (fun l => nth i l 0) cmin) (option_map (fun l => nth i l 0) cmax)
       (total_curvature ov (nth k st no_pots) (nth k V []) (fst (upper i)) (snd (upper i)))).
Proof.
  intros L1 L2 HS HI.
  rewrite (index_says (curvature_single m ov cmin cmax None) false (shaped m)
     (fun k p V => forall i, (i < 6)%nat -> 
     within (option_map (fun l => nth i l 0) cmin) (option_map (fun l => nth i l 0) cmax)
       (total_curvature ov p (nth k V []) (fst (upper i)) (snd (upper i))))); [| |exact HS|exact HI].
  - split; [intros H k a Hk; exact (H k Hk a)|intros H k Hk a; exact (H k a Hk)].
  - intros k p Hp. unfold curvature_single. rewrite (shaped_c m p Hp). fold (forget_c ov p). cbn [bind fst snd].
    set (vs := opt_list _ _ ++ _). destruct (yields_says false vs) as (its & Y & HY); [discriminate|].
    exists (forget_c ov p), vs, its. split; [reflexivity|]. split; [exact Y|]. split; [|split].
    + intros V'. rewrite HY. unfold vs. clear Y HY vs. cbn [triu3 map fst snd].
      assert (S6 : forall l : list R, length l = 6%nat -> exists x0 x1 x2 x3 x4 x5, l = [x0; x1; x2; x3; x4; x5]).
      { intros [|x0 [|x1 [|x2 [|x3 [|x4 [|x5 [|? ?]]]]]]] Hl; try discriminate. exists x0, x1, x2, x3, x4, x5. reflexivity. }
      unfold within. split.
      * intros H i Hi. split; intros b Hb.
        -- destruct cmin as [l|]; [|discriminate]. injection Hb as <-.
           destruct (S6 l (L1 l eq_refl)) as (x0 & x1 & x2 & x3 & x4 & x5 & ->).
           assert (E : nth i [x0; x1; x2; x3; x4; x5] 0 - total_curvature ov p (nth k V' []) (fst (upper i)) (snd (upper i)) <= 0); [|lra].
           eapply (H _ _); [apply in_or_app; left; left; reflexivity|]. cbn [val fval map2]. rewrite !forget_c_total.
           destruct i as [|[|[|[|[|[|i]]]]]]; try lia; cbn [nth upper fst snd In]; auto 10.
        -- destruct cmax as [l|]; [|discriminate]. injection Hb as <-.
           destruct (S6 l (L2 l eq_refl)) as (x0 & x1 & x2 & x3 & x4 & x5 & ->).
           assert (E : total_curvature ov p (nth k V' []) (fst (upper i)) (snd (upper i)) - nth i [x0; x1; x2; x3; x4; x5] 0 <= 0); [|lra].
           eapply (H _ _); [apply in_or_app; right; left; reflexivity|]. cbn [val fval map2]. rewrite !forget_c_total.
           destruct i as [|[|[|[|[|[|i]]]]]]; try lia; cbn [nth upper fst snd In]; auto 10.
      * intros H v x Hv Hx. unfold says. apply in_app_or in Hv. destruct Hv as [Hv|Hv].
        -- destruct cmin as [l|]; [|destruct Hv]. destruct Hv as [<-|[]].
           destruct (S6 l (L1 l eq_refl)) as (x0 & x1 & x2 & x3 & x4 & x5 & ->). cbn [val fval map2] in Hx. rewrite !forget_c_total in Hx.
           cbn [option_map] in H.
           pose proof (proj1 (H 0%nat ltac:(lia)) x0 eq_refl). pose proof (proj1 (H 1%nat ltac:(lia)) x1 eq_refl).
           pose proof (proj1 (H 2%nat ltac:(lia)) x2 eq_refl). pose proof (proj1 (H 3%nat ltac:(lia)) x3 eq_refl).
           pose proof (proj1 (H 4%nat ltac:(lia)) x4 eq_refl). pose proof (proj1 (H 5%nat ltac:(lia)) x5 eq_refl).
           cbn [upper fst snd] in *. destruct Hx as [<-|[<-|[<-|[<-|[<-|[<-|[]]]]]]]; lra.
        -- destruct cmax as [l|]; [|destruct Hv]. destruct Hv as [<-|[]].
           destruct (S6 l (L2 l eq_refl)) as (x0 & x1 & x2 & x3 & x4 & x5 & ->). cbn [val fval map2] in Hx. rewrite !forget_c_total in Hx.
           cbn [option_map] in H.
           pose proof (proj2 (H 0%nat ltac:(lia)) x0 eq_refl). pose proof (proj2 (H 1%nat ltac:(lia)) x1 eq_refl).
           pose proof (proj2 (H 2%nat ltac:(lia)) x2 eq_refl). pose proof (proj2 (H 3%nat ltac:(lia)) x3 eq_refl).
           pose proof (proj2 (H 4%nat ltac:(lia)) x4 eq_refl). pose proof (proj2 (H 5%nat ltac:(lia)) x5 eq_refl).
           cbn [upper fst snd] in *. destruct Hx as [<-|[<-|[<-|[<-|[<-|[<-|[]]]]]]]; lra.
    + apply forget_c_shaped, Hp.
    + intros j V'. split; intros H i Hi; specialize (H i Hi); rewrite forget_c_again in *; exact H.
Qed.

(** ** What goes wrong *)
Lemma over_raise single idx st e i0 : (forall k p, snd (single k p) = Raise e) ->
  (forall i, In i idx -> (- Z.of_nat (length st) <= i < Z.of_nat (length st))%Z) -> In i0 idx ->
  snd (over single idx st) = Raise e.
Proof.
  intros Hs HI H0. destruct idx as [|i idx]; [destruct H0|]. cbn [over].
  destruct (range_py (length st) i) as [k Hk]; [apply HI; left; reflexivity|].
  apply at_index_py in Hk. rewrite Hk. specialize (Hs k (nth k st no_pots)).
  fold no_pots. destruct (single k (nth k st no_pots)) as [p' vs]. cbn [snd] in Hs. subst vs. reflexivity.
Qed.
Lemma index_raise single index equal st e k0 : (forall k p, In p st -> snd (single k p) = Raise e) ->
  indices_ok (length st) index -> selected (length st) index k0 ->
  snd (constraints 0 equal (single_index index single) st) = Raise e.
Proof.
  intros Hs HI H0. unfold constraints. destruct (Req_EM_T 0 0) as [_|n]; [|destruct n; reflexivity].
  unfold single_index. set (idx := match index with Some l => l | None => _ end).
  assert (R : forall i, In i idx -> (- Z.of_nat (length st) <= i < Z.of_nat (length st))%Z).
  { unfold idx. destruct index as [l|]; [intros i Hi; exact (HI l i eq_refl Hi)|]. intros i Hi. apply in_map_iff in Hi.
    destruct Hi as (k & <- & Hk). apply in_seq in Hk. lia. }
  assert (N : exists i, In i idx).
  { unfold idx, selected in *. destruct index as [l|]; [destruct H0 as (i & Hi & _); exists i; exact Hi|].
    exists (Z.of_nat k0). apply in_map, in_seq. lia. }
  destruct N as [i0 Hi0]. destruct idx as [|i r]; [destruct Hi0|]. cbn [over].
  destruct (range_py (length st) i) as [k Hk]; [apply R; left; reflexivity|].
  pose proof Hk as [Hlt _]. apply at_index_py in Hk. rewrite Hk. fold no_pots.
  specialize (Hs k (nth k st no_pots) (nth_In _ _ Hlt)). destruct (single k (nth k st no_pots)) as [p' vs]. cbn [snd] in Hs. subst vs.
  reflexivity.
Qed.
Lemma shaped_in m st : (forall k, (k < length st)%nat -> shaped m (nth k st no_pots)) -> forall p, In p st -> shaped m p.
Proof. intros H p Hp. destruct (In_nth st p no_pots Hp) as (k & Hk & <-). exact (H k Hk). Qed.
Lemma force_coord_raises m ov fmax r equal index st k0 : m <> 3%nat ->
  (forall k, (k < length st)%nat -> shaped m (nth k st no_pots)) -> indices_ok (length st) index ->
  selected (length st) index k0 ->
  snd (constraints 0 equal (single_index index (force_single m ov fmax (Some r))) st) = Raise ValueError.
Proof.
  intros Hm HS HI H0. apply index_raise with (k0 := k0); [|exact HI|exact H0]. intros k p Hp.
  unfold force_single. rewrite (shaped_f m p (shaped_in m st HS p Hp)). cbn [snd]. unfold rotate_fv.
  destruct (Nat.eqb_spec m 3); [contradiction|]. reflexivity.
Qed.
Lemma curvature_coord_raises m ov cmin cmax r equal index st k0 : m <> 3%nat ->
  (forall k, (k < length st)%nat -> shaped m (nth k st no_pots)) -> indices_ok (length st) index ->
  selected (length st) index k0 ->
  snd (constraints 0 equal (single_index index (curvature_single m ov cmin cmax (Some r))) st) = Raise ValueError.
Proof.
  intros Hm HS HI H0. apply index_raise with (k0 := k0); [|exact HI|exact H0]. intros k p Hp.
  unfold curvature_single. rewrite (shaped_c m p (shaped_in m st HS p Hp)). cbn [snd]. unfold rotate_cv.
  destruct (Nat.eqb_spec m 3); [contradiction|]. reflexivity.
Qed.
Lemma offset_raises m ov pmin pmax pref0 electrodes el_pot equal index st k0 : electrodes <> [] ->
  (forall k, (k < length st)%nat -> shaped m (nth k st no_pots)) -> indices_ok (length st) index ->
  selected (length st) index k0 ->
  snd (constraints 0 equal (single_index index (offset_single m ov pmin pmax (Ok pref0) electrodes el_pot)) st) = Raise AttributeError.
Proof.
  intros Hm HS HI H0. apply index_raise with (k0 := k0); [|exact HI|exact H0]. intros k p Hp.
  unfold offset_single. destruct (shaped_in m st HS p Hp) as [-> _]. rewrite Nat.eqb_refl. cbn [snd bind].
  destruct electrodes as [|el l]; [contradiction|]. reflexivity.
Qed.
Lemma force_equal_raises m ov b index st k0 :
  (forall k, (k < length st)%nat -> shaped m (nth k st no_pots)) -> indices_ok (length st) index ->
  selected (length st) index k0 ->
  exists e, snd (constraints 0 true (single_index index (force_single m ov (Some b) None)) st) = Raise e.
Proof.
  intros HS HI H0. unfold constraints. destruct (Req_EM_T 0 0) as [_|n]; [|destruct n; reflexivity].
  unfold single_index. set (idx := match index with Some l => l | None => _ end).
  assert (R : forall i, In i idx -> (- Z.of_nat (length st) <= i < Z.of_nat (length st))%Z).
  { unfold idx. destruct index as [l|]; [intros i Hi; exact (HI l i eq_refl Hi)|]. intros i Hi. apply in_map_iff in Hi.
    destruct Hi as (k & <- & Hk). apply in_seq in Hk. lia. }
  assert (N : exists i, In i idx).
  { unfold idx, selected in *. destruct index as [l|]; [destruct H0 as (i & Hi & _); exists i; exact Hi|].
    exists (Z.of_nat k0). apply in_map, in_seq. lia. }
  destruct N as [i0 Hi0]. destruct idx as [|i r]; [destruct Hi0|]. cbn [over].
  destruct (range_py (length st) i) as [k Hk]; [apply R; left; reflexivity|].
  pose proof Hk as [Hlt _]. apply at_index_py in Hk. rewrite Hk. fold no_pots.
  unfold force_single at 1. rewrite (shaped_f m _ (HS k Hlt)). cbn [bind].
  destruct (over _ r _) as [st2 [ws|e]]; cbn [snd bind]; [|exists e; reflexivity].
  exists TypeError. cbn [app yields ge0 affine bind]. reflexivity.
Qed.

(** three electrodes, the coordinate axes turned *)
Definition quarter : mat := fun i j => match i, j with 0%nat, 1%nat => 1 | 1%nat, 0%nat => -1 | 2%nat, 2%nat => 1 | _, _ => 0 end.
Definition pots3 : pots := Pots 0 (fun _ => 0) (fun _ _ => 0) [0; 0; 0]
  (fun a => match a with 0%nat => [1; 0; 0] | _ => [0; 0; 0] end)
  (fun a b => match a, b with 0%nat, 0%nat => [1; 0; 0] | _, _ => [0; 0; 0] end).
Lemma quarter_orthogonal : orthogonal quarter.
Proof.
  intros i j Hi Hj. destruct i as [|[|[|]]], j as [|[|[|]]]; try lia; cbv [mmul transpose quarter delta3 Nat.eqb]; split; ring.
Qed.
Lemma pots3_shaped : shaped 3 pots3.
Proof.
  repeat split; [intros [|a] _; reflexivity|]. intros [|a] [|b] _ _; reflexivity.
Qed.
Lemma force_coord_wrong : exists r st V b, orthogonal r /\ shaped 3 (nth 0 st no_pots) /\ length st = 1%nat /\
  fulfils V (snd (constraints 0 false (single_index None (force_single 3 false (Some b) (Some r))) st)) /\
  ~ (forall a, (a < 3)%nat -> Rabs (force_in r (total_force false (nth 0 st no_pots) (nth 0 V [])) a) <= b a).
Proof.
  exists quarter, [pots3], [[1; 0; 0]], (fun _ => 1 / 2).
  split; [|split; [exact pots3_shaped|split; [reflexivity|split]]].
  - exact quarter_orthogonal.
  - unfold constraints. destruct (Req_EM_T 0 0) as [_|n]; [|destruct n; reflexivity].
    hnf. apply Forall_cons; [|apply Forall_nil]. cbn [item_holds]. intros x Hx. cbn [lhs op rhs holds_op fval] in *.
    cbn [seq map map2 fst snd] in Hx. cbv [rotate_f0 sum3 quarter nth pots3 f0 fv dot map2 sumR map seq] in Hx.
    destruct Hx as [<-|[<-|[<-|[]]]]; match goal with |- Rabs ?u - _ <= 0 => replace u with 0 by ring end; rewrite Rabs_R0; lra.
  - intros H. specialize (H 1%nat ltac:(lia)). revert H.
    cbv [force_in total_force offset quarter nth pots3 f0 fv dot map2 sumR].
    match goal with |- Rabs ?u <= _ -> _ => replace u with 1 by ring end. rewrite Rabs_R1. lra.
Qed.
Lemma curvature_coord_wrong : exists r st V b, orthogonal r /\ shaped 3 (nth 0 st no_pots) /\ length st = 1%nat /\ length b = 6%nat /\
  fulfils V (snd (constraints 0 false (single_index None (curvature_single 3 false None (Some b) (Some r))) st)) /\
  ~ (forall i, (i < 6)%nat ->
       rot r (fun ab => total_curvature false (nth 0 st no_pots) (nth 0 V []) (nth 0 ab 0%nat) (nth 1 ab 0%nat)) [fst (upper i); snd (upper i)]
       <= nth i b 0).
Proof.
  exists quarter, [pots3], [[1; 0; 0]], (repeat (1 / 2) 6).
  split; [|split; [exact pots3_shaped|split; [reflexivity|split; [reflexivity|split]]]].
  - exact quarter_orthogonal.
  - unfold constraints. destruct (Req_EM_T 0 0) as [_|n]; [|destruct n; reflexivity].
    hnf. apply Forall_cons; [|apply Forall_nil]. cbn [item_holds]. intros x Hx. cbn [lhs op rhs holds_op fval] in *.
    cbn [triu3 repeat map map2 fst snd] in Hx. cbv [rotate_c0 sum3 quarter nth pots3 c0 cv dot map2 sumR map seq] in Hx.
    destruct Hx as [<-|[<-|[<-|[<-|[<-|[<-|[]]]]]]]; lra.
  - intros H. specialize (H 3%nat ltac:(lia)). revert H.
    cbn [upper fst snd]. cbv [rot total_curvature offset quarter nth pots3 c0 cv dot map2 sumR repeat]. 
    cbn. lra.
Qed.

(** the arrays of the caller after the constraints *)
Lemma over_state single (P Z : pots -> Prop) (g : pots -> pots) :
  (forall k p, P p -> exists vs, single k p = (g p, Ok vs)) -> (forall p, P p -> P (g p)) -> (forall p, Z (g p)) ->
  forall idx st, (forall k, (k < length st)%nat -> P (nth k st no_pots)) ->
  (forall i, In i idx -> (- Z.of_nat (length st) <= i < Z.of_nat (length st))%Z) ->
  length (fst (over single idx st)) = length st /\
  (forall k, Z (nth k st no_pots) -> Z (nth k (fst (over single idx st)) no_pots)) /\
  (forall i k, In i idx -> at_index (length st) i k -> Z (nth k (fst (over single idx st)) no_pots)).
Proof.
  intros Hs Hg HZ. induction idx as [|i idx IH]; intros st HP HI.
  - cbn [over fst]. split; [reflexivity|]. split; [auto|intros i k []].
  - destruct (range_py (length st) i) as [k Hk]; [apply HI; left; reflexivity|].
    cbn [over]. pose proof Hk as [Hlt _]. apply at_index_py in Hk. rewrite Hk. apply at_index_py in Hk.
    fold no_pots. destruct (Hs k (nth k st no_pots) (HP k Hlt)) as (vs & E). rewrite E.
    assert (L : length (set_nth k (g (nth k st no_pots)) st) = length st) by apply set_nth_length.
    destruct (IH (set_nth k (g (nth k st no_pots)) st)) as (I1 & I2 & I3).
    + rewrite L. intros j Hj. rewrite set_nth_nth by exact Hlt. destruct (j =? k)%nat; [apply Hg, HP, Hlt|apply HP, Hj].
    + rewrite L. intros j Hj. apply HI. right. exact Hj.
    + destruct (over single idx _) as [st2 ws]. cbn [fst] in *. split; [rewrite I1; exact L|]. split.
      * intros j Hj. apply I2. rewrite set_nth_nth by exact Hlt. destruct (j =? k)%nat; [apply HZ|exact Hj].
      * intros i' k' [<-|Hi'] Hk'.
        -- rewrite (at_fun _ _ _ _ Hk' Hk). apply I2. rewrite set_nth_nth by exact Hlt. rewrite Nat.eqb_refl. apply HZ.
        -- apply (I3 i' k' Hi'). rewrite L. exact Hk'.
Qed.
Lemma index_state single equal (P Z : pots -> Prop) (g : pots -> pots) index st k :
  (forall k p, P p -> exists vs, single k p = (g p, Ok vs)) -> (forall p, P p -> P (g p)) -> (forall p, Z (g p)) ->
  (forall k, (k < length st)%nat -> P (nth k st no_pots)) -> indices_ok (length st) index ->
  selected (length st) index k -> Z (nth k (fst (constraints 0 equal (single_index index single) st)) no_pots).
Proof.
  intros Hs Hg HZ HP HI Hk. unfold constraints. destruct (Req_EM_T 0 0) as [_|n]; [|destruct n; reflexivity].
  unfold single_index. set (idx := match index with Some l => l | None => _ end).
  assert (R : forall i, In i idx -> (- Z.of_nat (length st) <= i < Z.of_nat (length st))%Z).
  { unfold idx. destruct index as [l|]; [intros i Hi; exact (HI l i eq_refl Hi)|]. intros i Hi. apply in_map_iff in Hi.
    destruct Hi as (j & <- & Hj). apply in_seq in Hj. lia. }
  destruct (over_state single P Z g Hs Hg HZ idx st HP R) as (_ & _ & H).
  destruct (over single idx st) as [st2 ws]. cbn [fst] in *.
  unfold idx, selected in *. destruct index as [l|].
  - destruct Hk as (i & Hi & Hk). exact (H i k Hi Hk).
  - apply (H (Z.of_nat k) k); [apply in_map, in_seq; lia|unfold at_index; lia].
Qed.
Lemma potential_overwrites m pmin pmax equal index st k :
  (forall k, (k < length st)%nat -> shaped m (nth k st no_pots)) -> indices_ok (length st) index -> selected (length st) index k ->
  p0 (nth k (fst (constraints 0 equal (single_index index (potential_single m true pmin pmax)) st)) no_pots) = 0.
Proof.
  intros HS HI Hk.
  apply (index_state (potential_single m true pmin pmax) equal (shaped m) (fun p => p0 p = 0)
     (fun p => Pots (p0 p * 0) (f0 p) (c0 p) (pv p) (fv p) (cv p)) index st k); [| | |exact HS|exact HI|exact Hk].
  - intros j p Hp. unfold potential_single. destruct Hp as [-> _]. rewrite Nat.eqb_refl. eexists. reflexivity.
  - intros p Hp. exact Hp.
  - intros p. cbn [p0]. ring.
Qed.
Lemma force_overwrites m fmax equal index st k a :
  (forall k, (k < length st)%nat -> shaped m (nth k st no_pots)) -> indices_ok (length st) index -> selected (length st) index k ->
  f0 (nth k (fst (constraints 0 equal (single_index index (force_single m true fmax None)) st)) no_pots) a = 0.
Proof.
  intros HS HI Hk.
  apply (index_state (force_single m true fmax None) equal (shaped m) (fun p => f0 p a = 0)
     (forget_f true) index st k); [| | |exact HS|exact HI|exact Hk].
  - intros j p Hp. unfold force_single. rewrite (shaped_f m p Hp). eexists. reflexivity.
  - intros p Hp. exact Hp.
  - intros p. cbn [forget_f f0]. ring.
Qed.
Lemma curvature_overwrites m cmin cmax equal index st k a b :
  (forall k, (k < length st)%nat -> shaped m (nth k st no_pots)) -> indices_ok (length st) index -> selected (length st) index k ->
  c0 (nth k (fst (constraints 0 equal (single_index index (curvature_single m true cmin cmax None)) st)) no_pots) a b = 0.
Proof.
  intros HS HI Hk.
  apply (index_state (curvature_single m true cmin cmax None) equal (shaped m) (fun p => c0 p a b = 0)
     (forget_c true) index st k); [| | |exact HS|exact HI|exact Hk].
  - intros j p Hp. unfold curvature_single. rewrite (shaped_c m p Hp). eexists. reflexivity.
  - intros p Hp. exact Hp.
  - intros p. cbn [forget_c c0]. ring.
Qed.
(** without [only_variable] nothing is written *)
Lemma set_nth_same {A} k (l : list A) d : (k < length l)%nat -> set_nth k (nth k l d) l = l.
Proof. revert k. induction l as [|a l IH]; intros [|k] H; cbn [length] in H; try lia; cbn [set_nth nth]; [reflexivity|]. f_equal. apply IH. lia. Qed.
Lemma over_keeps single : (forall k p, fst (single k p) = p) -> forall idx st, fst (over single idx st) = st.
Proof.
  intros Hs. induction idx as [|i idx IH]; intros st; [reflexivity|]. cbn [over].
  destruct (py_index (seq 0 (length st)) i) as [k|e] eqn:E; [|reflexivity].
  apply at_index_py in E. destruct E as [Hk _]. fold no_pots.
  specialize (Hs k (nth k st no_pots)). destruct (single k (nth k st no_pots)) as [p vs]. cbn [fst] in Hs. subst p.
  rewrite set_nth_same by exact Hk. destruct vs as [vs|e]; [|reflexivity].
  specialize (IH st). destruct (over single idx st). exact IH.
Qed.
Lemma index_keeps single equal weight index st : (forall k p, fst (single k p) = p) ->
  fst (constraints weight equal (single_index index single) st) = st.
Proof.
  intros Hs. unfold constraints. destruct (Req_EM_T weight 0); [|reflexivity]. unfold single_index.
  pose proof (over_keeps single Hs (match index with Some idx => idx | None => map Z.of_nat (seq 0 (length st)) end) st) as H.
  destruct (over _ _ st). exact H.
Qed.
Lemma symmetry_keeps m symmetry equal weight index st :
  fst (constraints weight equal (single_index index (symmetry_single m symmetry)) st) = st.
Proof. apply index_keeps. reflexivity. Qed.
Lemma potential_keeps m pmin pmax equal weight index st :
  fst (constraints weight equal (single_index index (potential_single m false pmin pmax)) st) = st.
Proof. apply index_keeps. intros k p. unfold potential_single. destruct (_ =? _)%nat; reflexivity. Qed.
Lemma force_keeps m fmax coord equal weight index st :
  fst (constraints weight equal (single_index index (force_single m false fmax coord)) st) = st.
Proof. apply index_keeps. intros k p. unfold force_single. destruct (forallb _ _); reflexivity. Qed.
Lemma curvature_keeps m cmin cmax coord equal weight index st :
  fst (constraints weight equal (single_index index (curvature_single m false cmin cmax coord)) st) = st.
Proof. apply index_keeps. intros k p. unfold curvature_single. destruct (forallb _ _); reflexivity. Qed.
Lemma two_grounded m a b p : (a < 0)%Z -> (b < 0)%Z ->
  snd (constraints 0 true (single_index None (symmetry_single m [(a, b)])) [p]) = Ok [PyBool true; PyBool true].
Proof.
  intros Ha Hb. unfold constraints. destruct (Req_EM_T 0 0) as [_|n]; [|destruct n; reflexivity].
  unfold single_index. cbn [length seq map over]. change (py_index [0%nat] (Z.of_nat 0)) with (@Ok nat 0%nat).
  unfold symmetry_single. cbn [map fst snd collect]. unfold sym_side.
  destruct (Z.leb_spec 0 a); [lia|]. destruct (Z.leb_spec 0 b); [lia|]. cbn [bind vminus app yields le0 ge0].
  destruct (Rle_dec (0 - 0) 0) as [_|n]; [|destruct n; lra]. destruct (Rle_dec 0 (0 - 0)) as [_|n]; [|destruct n; lra]. reflexivity.
Qed.
