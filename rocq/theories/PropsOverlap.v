(** C61, continued: what remove_overlaps makes of each electrode. *)
From Verif Require Import Base ModelExpr ModelField ModelLayout SpecPoly SpecLayout ProofLayout PropsLayout.
Open Scope R_scope.
Notation length := List.length.

Section Each.
Context {G X : Type} (sh : shapely G) (pts : G -> X -> Prop) (L : lawful sh pts).
Lemma overlaps_each self : forall p acc before,
  (forall x, pts acc x <-> covered pts before x) ->
  exists out acc', fold_left (overlap_step sh) self (p, acc) = (p ++ out, acc') /\ length out = length self /\
  forall k da db, (k < length self)%nat ->
    forall u, (forall x, pts u x <-> covered pts (before ++ firstn k self) x) ->
    (area sh (inter sh u (snd (nth k self da))) <= / 2 ^ 23 -> snd (nth k out db) = snd (nth k self da)) /\
    (/ 2 ^ 23 < area sh (inter sh u (snd (nth k self da))) ->
      forall x, pts (snd (nth k out db)) x <-> pts (snd (nth k self da)) x /\ ~ covered pts (before ++ firstn k self) x).
Proof.
  induction self as [|[ni pi] self IH]; intros p acc before Hacc.
  - exists [], acc. rewrite app_nil_r. split; [reflexivity|]. split; [reflexivity|]. cbn [length]. intros k da db K. lia.
  - cbn [fold_left]. destruct (overlap_step sh (p, acc) (ni, pi)) as [p' acc'] eqn:E.
    destruct (step_spec sh pts L _ _ _ _ _ _ E) as (pi' & -> & A & _ & _ & _).
    destruct (IH (p ++ [(ni, pi')]) acc' (before ++ [(ni, pi)])) as (out & acc'' & E' & Len & K).
    { intros x. rewrite A, Hacc. split.
      - intros [(n & g & Hin & H)|H]; [exists n, g; split; [apply in_or_app; left; exact Hin|exact H]|exists ni, pi; split; [apply in_or_app; right; left; reflexivity|exact H]].
      - intros (n & g & Hin & H). apply in_app_or in Hin as [Hin|[[= <- <-]|[]]]; [left; exists n, g; auto|right; exact H]. }
    exists ((ni, pi') :: out), acc''. rewrite <- app_assoc in E'. split; [exact E'|]. split; [cbn [length]; lia|]. intros [|k] da db Hk u Hu.
    + cbn [firstn nth snd] in *. rewrite app_nil_r in *.
      assert (AE : area sh (inter sh u pi) = area sh (inter sh acc pi)).
      { apply Rle_antisym; apply (l_area sh pts L); intros x; rewrite !(l_inter sh pts L), Hu, Hacc; tauto. }
      rewrite AE. unfold overlap_step in E. rewrite !(l_valid sh pts L) in E. cbn [andb] in E. unfold float32_eps in E.
      destruct (Rlt_dec (/ 2 ^ 23) (area sh (inter sh acc pi))) as [H|H]; injection E as E1 _; apply app_inv_head in E1; injection E1 as <-.
      * split; [intros; lra|]. intros _ x. rewrite (l_diff sh pts L), (l_inter sh pts L), Hacc. tauto.
      * split; [reflexivity|]. intros; lra.
    + cbn [length] in Hk. cbn [nth]. assert (S : before ++ firstn (S k) ((ni, pi) :: self) = (before ++ [(ni, pi)]) ++ firstn k self) by (rewrite <- app_assoc; reflexivity).
      rewrite S in *. apply (K k da db); [lia|exact Hu].
Qed.
End Each.

(** An electrode that overlaps the union [u] of those before it by an area of at most 2^-23 is
    left as it is.  From one that overlaps it more, exactly the points of those before it are
    removed. *)
Theorem C61_each :
  forall G X (sh : shapely G) (pts : G -> X -> Prop), lawful sh pts ->
  forall self before a after, self = before ++ a :: after ->
  forall u, (forall x, pts u x <-> covered pts before x) ->
  exists b, nth_error (remove_overlaps sh self) (length before) = Some b /\ fst b = fst a /\
  (area sh (inter sh u (snd a)) <= / 2 ^ 23 -> snd b = snd a) /\
  (/ 2 ^ 23 < area sh (inter sh u (snd a)) -> forall x, pts (snd b) x <-> pts (snd a) x /\ ~ covered pts before x).
Proof.
  intros G X sh pts L self before a after S u U.
  destruct (C61_remove_overlaps G X sh pts L self) as (N & _). destruct (overlaps_each sh pts L self [] (empty sh) []) as (out & acc' & E & Len & K).
  { intros x. split; [intros H; destruct (l_empty sh pts L x H)|intros (n & g & [] & _)]. }
  unfold remove_overlaps in *. rewrite E in *. cbn [fst app] in *. assert (Lb : (length before < length self)%nat) by (rewrite S, app_length; cbn [length]; lia).
  assert (F : firstn (length before) self = before) by (rewrite S, firstn_app, Nat.sub_diag, firstn_all, app_nil_r; reflexivity).
  assert (A : nth (length before) self a = a) by (rewrite S, app_nth2, Nat.sub_diag by lia; reflexivity).
  exists (nth (length before) out a). split; [apply nth_error_nth'; lia|]. split.
  - rewrite <- (map_nth fst), N, map_nth, A. reflexivity.
  - specialize (K (length before) a a Lb u). rewrite F, A in K. apply K, U.
Qed.
Print Assumptions C61_each.

(** cells 2..6 after cells 0..4: more than 2^-23 overlaps *)
Example C61_case_each : exists u, (forall x, cell_in u x <-> covered cell_in [("a"%string, run 0 5)] x) /\ / 2 ^ 23 < area cells16 (inter cells16 u (run 2 7)).
Proof.
  exists (run 0 5). split.
  - intros x. split; [intros H; exists "a"%string, (run 0 5); split; [left; reflexivity|exact H]|]. intros (n & g & [I|[]] & H). injection I as _ <-. exact H.
  - cbn. lra.
Qed.
