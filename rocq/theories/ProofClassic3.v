(** What the constraints bound in turned axes, and the offset constraint of no
    electrodes. *)
From Verif Require Import Base ModelUtils ModelField ModelCons ModelClassic SpecTensor SpecField SpecCons SpecClassic ProofClassic ProofClassic2.
Open Scope R_scope.
Notation length := List.length.

Lemma dot3_nth a b c v : dot [a; b; c] v = a * nth 0 v 0 + b * nth 1 v 0 + c * nth 2 v 0.
Proof.
  unfold dot. destruct v as [|x [|y [|z v]]]; cbn [map2 sumR nth]; ring.
Qed.
Lemma three (l : list R) : length l = 3%nat -> exists a b c, l = [a; b; c].
Proof. intros H. destruct l as [|a [|b [|c [|d l]]]]; try discriminate. exists a, b, c. reflexivity. Qed.
Lemma turn_dot (l v : list R) r : length l = 3%nat ->
  dot (map (fun e => sum3 (fun j => nth j l 0 * r j e)) (seq 0 3)) v = dot l (turned r v).
Proof.
  intros H. destruct (three l H) as (a & b & c & ->). unfold turned. cbn [seq map]. rewrite !dot3_nth.
  unfold sum3. cbn [nth]. ring.
Qed.
Lemma turn_dot2 (c : nat -> list R) v r b : (forall i, (i < 3)%nat -> length (c i) = 3%nat) ->
  dot (map (fun e => sum3 (fun i => sum3 (fun j => nth j (c i) 0 * r j e) * r i b)) (seq 0 3)) v =
  force_in r (fun i => dot (c i) (turned r v)) b.
Proof.
  intros H. unfold force_in. rewrite <- !turn_dot by (apply H; lia). cbn [seq map]. rewrite !dot3_nth. unfold sum3. ring.
Qed.
Lemma forget_f0 ov p r a : rotate_f0 (f0 (forget_f ov p)) r a = force_in r (fun a => offset ov (f0 p a)) a.
Proof. unfold rotate_f0, sum3, force_in, offset, forget_f. destruct ov; cbn [f0]; ring. Qed.
Lemma forget_fv ov p : fv (forget_f ov p) = fv p.
Proof. destruct ov; reflexivity. Qed.
Lemma forget_cv ov p : cv (forget_c ov p) = cv p.
Proof. destruct ov; reflexivity. Qed.
Lemma forget_c0 ov p r a b : rotate_c0 (c0 (forget_c ov p)) r a b =
  rot r (fun ij => offset ov (c0 p (nth 0 ij 0%nat) (nth 1 ij 0%nat))) [a; b].
Proof.
  cbn. unfold rotate_c0, sum3, offset, forget_c. destruct ov; cbn [c0]; ring.
Qed.
Lemma force_coord ov b r index st V :
  (forall k, (k < length st)%nat -> shaped 3 (nth k st no_pots)) -> indices_ok (length st) index ->
  (fulfils V (snd (constraints 0 false (single_index index (force_single 3 ov (Some b) (Some r))) st)) <->
   forall k a, selected (length st) index k -> (a < 3)%nat ->
     Rabs (force_in r (fun a => offset ov (f0 (nth k st no_pots) a)) a + dot (fv (nth k st no_pots) a) (turned r (nth k V []))) <= b a).
Proof.
  intros HS HI.
  rewrite (index_says (force_single 3 ov (Some b) (Some r)) false (shaped 3)
     (fun k p V => forall a, (a < 3)%nat ->
       Rabs (force_in r (fun a => offset ov (f0 p a)) a + dot (fv p a) (turned r (nth k V []))) <= b a)); [| |exact HS|exact HI].
  - split; [intros H k a Hk; exact (H k Hk a)|intros H k Hk a; exact (H k a Hk)].
  - intros k p Hp. unfold force_single. rewrite (shaped_f 3 p Hp). fold (forget_f ov p). unfold rotate_fv. cbn [Nat.eqb bind fst snd].
    set (vs := [VFn _]). destruct (yields_says false vs) as (its & Y & HY); [discriminate|].
    exists (forget_f ov p), vs, its. split; [reflexivity|]. split; [exact Y|]. split; [|split].
    + assert (E : forall a V, (a < 3)%nat -> rotate_f0 (f0 (forget_f ov p)) r a +
         dot (map (fun e => sum3 (fun j => nth j (fv (forget_f ov p) a) 0 * r j e)) (seq 0 3)) (nth k V []) =
         force_in r (fun a => offset ov (f0 p a)) a + dot (fv p a) (turned r (nth k V []))).
      { intros a V' Ha. rewrite forget_f0, forget_fv, turn_dot by (apply Hp; exact Ha). reflexivity. }
      intros V'. rewrite HY. unfold vs. clear Y HY.
      assert (Ev : forall x, In x (val (VFn (Fn (fun V : cand => map2 (fun x y => Rabs x - y)
           (map (fun a => rotate_f0 (f0 (forget_f ov p)) r a +
              dot (map (fun e => sum3 (fun j => nth j (fv (forget_f ov p) a) 0 * r j e)) (seq 0 3)) (nth k V [])) (seq 0 3))
           (map b (seq 0 3))) false)) V') <-> exists a, (a < 3)%nat /\
           x = Rabs (force_in r (fun a => offset ov (f0 p a)) a + dot (fv p a) (turned r (nth k V' []))) - b a).
      { intros x. cbn [val fval]. change (seq 0 3) with [0; 1; 2]%nat at 2 3. cbn [map map2 In]. rewrite !E by lia. split.
        - intros [<-|[<-|[<-|[]]]]; eexists; (split; [|reflexivity]); lia.
        - intros ([|[|[|a]]] & Ha & ->); [| | |lia]; auto. }
      cbn [says]. split.
      * intros H a Ha. assert (G : Rabs (force_in r (fun a => offset ov (f0 p a)) a + dot (fv p a) (turned r (nth k V' []))) - b a <= 0); [|lra].
        eapply (H _ _); [left; reflexivity|]. apply Ev. exists a. split; [exact Ha|reflexivity].
      * intros H v x [<-|[]] Hx. apply Ev in Hx. destruct Hx as (a & Ha & ->). specialize (H a Ha). cbn [says]. lra.
    + apply forget_f_shaped, Hp.
    + intros j V'. unfold forget_f. destruct ov; reflexivity.
Qed.
Lemma curvature_coord ov cmin cmax r index st V :
  (forall l, cmin = Some l -> length l = 6%nat) -> (forall l, cmax = Some l -> length l = 6%nat) ->
  (forall k, (k < length st)%nat -> shaped 3 (nth k st no_pots)) -> indices_ok (length st) index ->
  (fulfils V (snd (constraints 0 false (single_index index (curvature_single 3 ov cmin cmax (Some r))) st)) <->
   forall k i, selected (length st) index k -> (i < 6)%nat ->
     within (option_map (fun l => nth i l 0) cmin) (option_map (fun l => nth i l 0) cmax)
       (rot r (fun ij => offset ov (c0 (nth k st no_pots) (nth 0 ij 0%nat) (nth 1 ij 0%nat))) [fst (upper i); snd (upper i)] +
        force_in r (fun j => dot (cv (nth k st no_pots) (fst (upper i)) j) (turned r (nth k V []))) (snd (upper i)))).
Proof.
  intros L1 L2 HS HI.
  set (T := fun (k : nat) (p : pots) (V : cand) (ab : nat * nat) =>
       rot r (fun ij => offset ov (c0 p (nth 0 ij 0%nat) (nth 1 ij 0%nat))) [fst ab; snd ab] +
        force_in r (fun j => dot (cv p (fst ab) j) (turned r (nth k V []))) (snd ab)).
  rewrite (index_says (curvature_single 3 ov cmin cmax (Some r)) false (shaped 3)
     (fun k p V => forall i, (i < 6)%nat ->
     within (option_map (fun l => nth i l 0) cmin) (option_map (fun l => nth i l 0) cmax) (T k p V (upper i)))); [| |exact HS|exact HI].
  - split; [intros H k a Hk; exact (H k Hk a)|intros H k Hk a; exact (H k a Hk)].
  - intros k p Hp. unfold curvature_single. rewrite (shaped_c 3 p Hp). fold (forget_c ov p). unfold rotate_cv. cbn [Nat.eqb bind fst snd].
    set (vs := opt_list _ _ ++ _). destruct (yields_says false vs) as (its & Y & HY); [discriminate|].
    exists (forget_c ov p), vs, its. split; [reflexivity|]. split; [exact Y|]. split; [|split].
    + assert (E : forall V, map (fun ab : nat * nat => rotate_c0 (c0 (forget_c ov p)) r (fst ab) (snd ab) +
         dot (map (fun e => sum3 (fun i => sum3 (fun j => nth j (cv (forget_c ov p) (fst ab) i) 0 * r j e) * r i (snd ab))) (seq 0 3))
           (nth k V [])) triu3 = map (T k p V) triu3).
      { intros V'. apply map_ext_in. intros ab Hab. rewrite forget_c0, forget_cv. rewrite turn_dot2; [reflexivity|].
        intros i Hi. destruct Hp as (_ & _ & Hc). apply Hc; [|exact Hi].
        cbn [triu3 In] in Hab. destruct Hab as [<-|[<-|[<-|[<-|[<-|[<-|[]]]]]]]; cbn [fst]; lia. }
      assert (I6 : forall V' x, In x (map (T k p V') triu3) -> exists i, (i < 6)%nat /\ x = T k p V' (upper i)).
      { intros V' x. cbn [triu3 map In].
        intros [<-|[<-|[<-|[<-|[<-|[<-|[]]]]]]]; [exists 0%nat|exists 1%nat|exists 2%nat|exists 3%nat|exists 4%nat|exists 5%nat];
          (split; [lia|reflexivity]). }
      assert (S6 : forall l : list R, length l = 6%nat -> exists x0 x1 x2 x3 x4 x5, l = [x0; x1; x2; x3; x4; x5]).
      { intros [|x0 [|x1 [|x2 [|x3 [|x4 [|x5 [|? ?]]]]]]] Hl; try discriminate. exists x0, x1, x2, x3, x4, x5. reflexivity. }
      assert (M6 : forall (g : R -> R -> R) V' l x, length l = 6%nat ->
         (In x (map2 g l (map (T k p V') triu3)) <-> exists i, (i < 6)%nat /\ x = g (nth i l 0) (T k p V' (upper i)))).
      { intros g V' l x Hl. destruct (S6 l Hl) as (x0 & x1 & x2 & x3 & x4 & x5 & ->). cbn [triu3 map map2 In]. split.
        - intros [<-|[<-|[<-|[<-|[<-|[<-|[]]]]]]]; [exists 0%nat|exists 1%nat|exists 2%nat|exists 3%nat|exists 4%nat|exists 5%nat];
          (split; [lia|reflexivity]).
        - intros ([|[|[|[|[|[|i]]]]]] & Hi & ->); try lia; cbn [nth upper]; auto 10. }
      assert (Sw : forall (g : R -> R -> R) (a b : list R), map2 g a b = map2 (fun x y => g y x) b a).
      { intros g a. induction a as [|x a IH]; intros [|y b]; cbn [map2]; try reflexivity. f_equal. apply IH. }
      intros V'. rewrite HY. unfold vs. clear Y HY vs. cbn [says].
      split.
      * intros H i Hi. split; intros b Hb.
        -- destruct cmin as [l|]; [|discriminate]. injection Hb as <-.
           assert (G : nth i l 0 - T k p V' (upper i) <= 0); [|lra].
           eapply (H _ _); [apply in_or_app; left; left; reflexivity|]. cbn [val fval]. rewrite E.
           apply (M6 Rminus V' l _ (L1 l eq_refl)). exists i. split; [exact Hi|reflexivity].
        -- destruct cmax as [l|]; [|discriminate]. injection Hb as <-.
           assert (G : T k p V' (upper i) - nth i l 0 <= 0); [|lra].
           eapply (H _ _); [apply in_or_app; right; left; reflexivity|]. cbn [val fval]. rewrite E, Sw.
           apply (M6 (fun x y => y - x) V' l _ (L2 l eq_refl)). exists i. split; [exact Hi|reflexivity].
      * intros H v x Hv Hx. cbn [says]. apply in_app_or in Hv. destruct Hv as [Hv|Hv].
        -- destruct cmin as [l|]; [|destruct Hv]. destruct Hv as [<-|[]]. cbn [val fval] in Hx. rewrite E in Hx.
           apply (M6 Rminus V' l _ (L1 l eq_refl)) in Hx. destruct Hx as (i & Hi & ->).
           pose proof (proj1 (H i Hi) _ eq_refl) as G. cbn [option_map] in G. lra.
        -- destruct cmax as [l|]; [|destruct Hv]. destruct Hv as [<-|[]]. cbn [val fval] in Hx. rewrite E, Sw in Hx.
           apply (M6 (fun x y => y - x) V' l _ (L2 l eq_refl)) in Hx. destruct Hx as (i & Hi & ->).
           pose proof (proj2 (H i Hi) _ eq_refl) as G. cbn [option_map] in G. lra.
    + apply forget_c_shaped, Hp.
    + intros j V'. unfold T, forget_c. destruct ov; reflexivity.
Qed.
Lemma offset_none ov pmin pmax pref0 el_pot index st V :
  (forall k, (k < length st)%nat -> shaped 0 (nth k st no_pots)) -> indices_ok (length st) index ->
  (fulfils V (snd (constraints 0 false (single_index index (offset_single 0 ov pmin pmax (Ok pref0) [] el_pot)) st)) <->
   forall k, selected (length st) index k -> within pmin pmax (offset ov (pref0 - p0 (nth k st no_pots)))).
Proof.
  intros HS HI.
  apply (index_says (offset_single 0 ov pmin pmax (Ok pref0) [] el_pot) false (shaped 0)
     (fun k p V => within pmin pmax (offset ov (pref0 - p0 p)))); [|exact HS|exact HI].
  intros k p Hp. unfold offset_single. pose proof Hp as [Hl _]. rewrite Hl, Nat.eqb_refl. cbn [map collect bind].
  set (vs := opt_list _ _ ++ _). destruct (yields_says false vs) as (its & Y & HY); [discriminate|].
  exists p, vs, its. split; [reflexivity|]. split; [exact Y|]. split; [|split; [exact Hp|reflexivity]].
  intros V'. rewrite HY. unfold vs. clear Y HY vs. unfold within.
  assert (D : forall v, dot (map2 Rminus [] (pv p)) v = 0) by (intros v; reflexivity).
  fold (offset ov (pref0 - p0 p)). split.
  - intros H. split; intros b ->.
    + assert (G : b - (offset ov (pref0 - p0 p) + dot (map2 Rminus [] (pv p)) (nth k V' [])) <= 0).
      { eapply (H _ _); [apply in_or_app; left; left; reflexivity|left; reflexivity]. }
      rewrite D in G. lra.
    + assert (G : offset ov (pref0 - p0 p) + dot (map2 Rminus [] (pv p)) (nth k V' []) - b <= 0).
      { eapply (H _ _); [apply in_or_app; right; left; reflexivity|left; reflexivity]. }
      rewrite D in G. lra.
  - intros [H1 H2] v x Hv Hx. cbn [says]. apply in_app_or in Hv. destruct Hv as [Hv|Hv].
    + destruct pmin as [b|]; [|destruct Hv]. destruct Hv as [<-|[]]. cbn [val fval] in Hx. destruct Hx as [<-|[]].
      rewrite D. specialize (H1 b eq_refl). lra.
    + destruct pmax as [b|]; [|destruct Hv]. destruct Hv as [<-|[]]. cbn [val fval] in Hx. destruct Hx as [<-|[]].
      rewrite D. specialize (H2 b eq_refl). lra.
Qed.
