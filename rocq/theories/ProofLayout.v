From Coq Require Import Permutation Sorted.
From Verif Require Import Base ModelExpr ModelField ModelGeom ModelLayout SpecPoly SpecLayout ProofPoly3.
Open Scope R_scope.
Notation length := List.length.

(** ** assign_to_pad *)
Lemma remove_first_in i l j : NoDup l -> (In j (remove_first i l) <-> In j l /\ j <> i).
Proof.
  induction l as [|k l IH]; intros N; cbn [remove_first]; [cbn; tauto|]. inversion N as [|? ? Nk Nl]; subst.
  destruct (Nat.eqb_spec i k) as [->|D].
  - cbn [In]. split; [intros H; split; [auto|]; intros ->; contradiction|]. intros [[->|H] E]; [congruence|exact H].
  - cbn [In]. rewrite (IH Nl). split; [intros [->|[H E]]; auto|]. intros [[->|H] E]; auto.
Qed.
Lemma remove_first_perm i l : In i l -> Permutation l (i :: remove_first i l).
Proof.
  induction l as [|k l IH]; cbn [remove_first In]; [tauto|]. destruct (Nat.eqb_spec i k) as [->|D]; intros H; [reflexivity|].
  destruct H as [->|H]; [congruence|]. rewrite (IH H) at 1. apply perm_swap.
Qed.
Lemma Forall_remove_first P i l : Forall P l -> Forall P (remove_first i l).
Proof. induction 1 as [|x l X F IH]; cbn; [constructor|]. destruct (i =? x)%nat; [exact F|constructor; assumption]. Qed.
Lemma remove_first_sorted i l : StronglySorted lt l -> StronglySorted lt (remove_first i l).
Proof.
  induction 1 as [|k l S IH F]; cbn [remove_first]; [constructor|]. destruct (i =? k)%nat; [exact S|].
  constructor; [exact IH|]. apply Forall_remove_first, F.
Qed.
Lemma sorted_nodup l : StronglySorted lt l -> NoDup l.
Proof.
  induction 1 as [|k l S IH F]; constructor; [|exact IH]. intros H. rewrite Forall_forall in F. apply F in H. lia.
Qed.
Lemma find_first f l i : StronglySorted lt l -> find f l = Some i -> In i l /\ f i = true /\ forall j, In j l -> f j = true -> (i <= j)%nat.
Proof.
  induction 1 as [|k l S IH F]; cbn [find]; [discriminate|]. destruct (f k) eqn:E.
  - intros [= <-]. split; [left; reflexivity|]. split; [exact E|]. intros j [->|Hj] _; [lia|]. rewrite Forall_forall in F. apply F in Hj. lia.
  - intros H. destruct (IH H) as (A & B & C). split; [right; exact A|]. split; [exact B|]. intros j [->|Hj] Ej; [congruence|]. apply C; assumption.
Qed.
Lemma assign_loop_spec {P} (meets : P -> nat -> bool) d pads : forall pad polys, StronglySorted lt polys ->
  exists matched rest,
  assign_loop meets pad pads polys = map (fun ki => (Some (fst ki), snd ki)) matched ++ map (fun i => (None, i)) rest /\
  Permutation (map snd matched ++ rest) polys /\ StronglySorted lt (map fst matched) /\
  Forall (fun k => (pad <= k < pad + length pads)%nat) (map fst matched) /\ StronglySorted lt rest /\
  (forall k i, In (k, i) matched -> meets (nth (k - pad) pads d) i = true /\
     forall j, In j polys -> unused_before matched k j -> meets (nth (k - pad) pads d) j = true -> (i <= j)%nat) /\
  (forall k, (pad <= k < pad + length pads)%nat -> ~ In k (map fst matched) ->
     forall j, In j polys -> unused_before matched k j -> meets (nth (k - pad) pads d) j = false).
Proof.
  induction pads as [|p pads IH]; intros pad polys S.
  - exists [], polys. cbn [assign_loop map app length]. split; [reflexivity|]. split; [apply Permutation_refl|]. split; [constructor|].
    split; [constructor|]. split; [exact S|]. split; [intros k i []|]. intros k Hk. lia.
  - cbn [assign_loop]. destruct (find (meets p) polys) as [i|] eqn:E.
    + destruct (find_first _ _ _ S E) as (Hi & Mi & First).
      assert (PP := remove_first_perm i polys Hi). set (polys' := remove_first i polys) in *.
      assert (S' : StronglySorted lt polys') by (apply remove_first_sorted, S).
      cbv zeta. destruct (Nat.eqb_spec (length polys') 0) as [L|L].
      * assert (polys' = []) as E' by (destruct polys'; [reflexivity|discriminate L]). rewrite E' in PP.
        exists [(pad, i)], []. cbn [map app fst snd]. split; [reflexivity|]. split; [symmetry; exact PP|].
        split; [constructor; constructor|]. split; [constructor; [cbn; lia|constructor]|]. split; [constructor|]. split.
        -- intros k i' [[= <- <-]|[]]. rewrite Nat.sub_diag. cbn [nth]. split; [exact Mi|]. intros j Hj _ Mj. apply First; assumption.
        -- intros k Hk Nk j Hj U. exfalso. assert (j = i) as -> by (apply (Permutation_in _ PP) in Hj; destruct Hj as [->|[]]; reflexivity).
           specialize (U pad (or_introl eq_refl)). apply Nk. left. lia.
      * destruct (IH (Datatypes.S pad) polys' S') as (matched & rest & O & Pm & Sm & Fm & Sr & Hm & Hk).
        exists ((pad, i) :: matched), rest. cbn [map app fst snd]. split; [rewrite O; reflexivity|].
        split; [rewrite PP; apply perm_skip, Pm|].
        assert (Gt : Forall (fun k => (pad < k < pad + length (p :: pads))%nat) (map fst matched)).
        { eapply Forall_impl; [|exact Fm]. cbn [length]. intros k H. lia. }
        split; [constructor; [exact Sm|eapply Forall_impl; [|exact Gt]; cbn; intros; lia]|].
        split; [constructor; [cbn [length]; lia|eapply Forall_impl; [|exact Gt]; cbn; intros; lia]|]. split; [exact Sr|].
        assert (Un : forall k j, unused_before ((pad, i) :: matched) k j -> unused_before matched k j) by (intros k j U k' Hk'; apply U; right; exact Hk').
        assert (Ni : forall k j, (pad < k)%nat -> unused_before ((pad, i) :: matched) k j -> j <> i).
        { intros k j Hlt U ->. specialize (U pad (or_introl eq_refl)). lia. }
        split.
        -- intros k i' [[= <- <-]|H].
           ++ rewrite Nat.sub_diag. cbn [nth]. split; [exact Mi|]. intros j Hj _ Mj. apply First; assumption.
           ++ assert (pad < k)%nat as Hlt. { rewrite Forall_forall in Gt. apply Gt. apply (in_map fst) in H. exact H. }
              replace (k - pad)%nat with (Datatypes.S (k - Datatypes.S pad)) by lia. cbn [nth].
              destruct (Hm k i' H) as [A B]. split; [exact A|]. intros j Hj U Mj. apply B; try assumption; [|apply Un, U].
              apply remove_first_in; [apply sorted_nodup, S|]. split; [exact Hj|apply (Ni k j Hlt U)].
        -- intros k Hk' Nk j Hj U. cbn [length] in Hk'. destruct (Nat.eq_dec k pad) as [->|D]; [exfalso; apply Nk; left; reflexivity|].
           replace (k - pad)%nat with (Datatypes.S (k - Datatypes.S pad)) by lia. cbn [nth]. apply Hk; [lia| | |apply Un, U].
           ++ intros Hin. apply Nk. right. exact Hin.
           ++ apply remove_first_in; [apply sorted_nodup, S|]. split; [exact Hj|apply (Ni k j ltac:(lia) U)].
    + assert (No := find_none _ _ E). destruct (Nat.eqb_spec (length polys) 0) as [L|L].
      * destruct polys; [|discriminate L]. exists [], []. cbn [map app]. split; [reflexivity|]. split; [constructor|]. split; [constructor|].
        split; [constructor|]. split; [constructor|]. split; [intros k i []|]. intros k _ _ j [].
      * destruct (IH (Datatypes.S pad) polys S) as (matched & rest & O & Pm & Sm & Fm & Sr & Hm & Hk).
        exists matched, rest. split; [exact O|]. split; [exact Pm|]. split; [exact Sm|].
        split; [eapply Forall_impl; [|exact Fm]; cbn [length]; intros; lia|]. split; [exact Sr|]. split.
        -- intros k i H. assert (Datatypes.S pad <= k)%nat as Hlt. { rewrite Forall_forall in Fm. apply Fm. apply (in_map fst) in H. exact H. }
           replace (k - pad)%nat with (Datatypes.S (k - Datatypes.S pad)) by lia. cbn [nth]. apply Hm, H.
        -- intros k Hk' Nk j Hj U. cbn [length] in Hk'. destruct (Nat.eq_dec k pad) as [->|D].
           ++ rewrite Nat.sub_diag. cbn [nth]. apply No, Hj.
           ++ replace (k - pad)%nat with (Datatypes.S (k - Datatypes.S pad)) by lia. cbn [nth]. apply Hk; try assumption. lia.
Qed.
Lemma seq_sorted s n : StronglySorted lt (seq s n).
Proof.
  revert s. induction n as [|n IH]; intros s; cbn; constructor; [apply IH|]. apply Forall_forall. intros j Hj. apply in_seq in Hj. lia.
Qed.
Lemma assign_spec {P G} (hits : P -> G -> bool) (self : list (string * G)) pads (dp : P) (dg : string * G) :
  exists matched rest, pad_assignment (fun k i => hits (nth k pads dp) (snd (nth i self dg)))
    (length pads) (length self) (assign_to_pad hits self pads) matched rest.
Proof.
  unfold assign_to_pad. set (m := fun p i => match nth_error self i with Some x => hits p (snd x) | None => false end).
  destruct (assign_loop_spec m dp pads 0 (seq 0 (length self)) (seq_sorted 0 _)) as (matched & rest & O & Pm & Sm & Fm & Sr & Hm & Hk).
  assert (M : forall p i, (i < length self)%nat -> m p i = hits p (snd (nth i self dg))).
  { intros p i Hi. unfold m. rewrite (nth_error_nth' _ dg Hi). reflexivity. }
  assert (I : forall k i, In (k, i) matched -> (i < length self)%nat).
  { intros k i H. assert (In i (seq 0 (length self))) as Hs.
    { apply (Permutation_in _ Pm), in_or_app. left. apply (in_map snd) in H. exact H. } apply in_seq in Hs. lia. }
  exists matched, rest. split.
  - exact O.
  - rewrite O, map_app, !map_map. cbn [snd]. rewrite map_id. exact Pm.
  - split; [exact Sm|]. eapply Forall_impl; [|exact Fm]. cbn. intros; lia.
  - exact Sr.
  - intros k i H. specialize (Hm k i H). rewrite Nat.sub_0_r in Hm. rewrite M in Hm by (eapply I, H). destruct Hm as [A B]. split; [exact A|].
    intros j Hj U Mj. apply B; [apply in_seq; lia|exact U|]. rewrite M by exact Hj. exact Mj.
  - intros k Hk' Nk j Hj U. specialize (Hk k ltac:(lia) Nk j ltac:(apply in_seq; lia) U). rewrite Nat.sub_0_r, M in Hk by exact Hj. exact Hk.
Qed.

(** ** naming *)
Lemma nth_self {A} (d : A) l : map (fun j => nth j l d) (seq 0 (length l)) = l.
Proof.
  apply (nth_ext _ _ d d); [now rewrite map_length, seq_length|]. intros n Hn. rewrite map_length, seq_length in Hn.
  rewrite (nth_indep _ d (nth 0 l d)) by (rewrite map_length, seq_length; exact Hn). rewrite (map_nth (fun j => nth j l d) (seq 0 _) 0%nat), seq_nth by exact Hn. reflexivity.
Qed.
Lemma flat_map_single {A B} (f : A -> list B) (g : A -> B) l : (forall x, In x l -> f x = [g x]) -> flat_map f l = map g l.
Proof. induction l as [|x l IH]; intros H; [reflexivity|]. cbn. rewrite H by (left; reflexivity). cbn. f_equal. apply IH. intros y Hy. apply H. right. exact Hy. Qed.
Lemma name_spec {G} (hits : p2 -> G -> bool) fragments names (dn : string * p2) (dg : string * G) : names <> [] ->
  exists matched rest, pad_assignment (fun k i => hits (snd (nth k names dn)) (snd (nth i fragments dg)))
    (length names) (length fragments) (assign_to_pad hits fragments (map snd names)) matched rest /\
  name_fragments hits fragments names =
  map (fun ki => (fst (nth (fst ki) names dn), snd (nth (snd ki) fragments dg))) matched ++ map (fun i => nth i fragments dg) rest.
Proof.
  intros Hn. destruct (assign_spec hits fragments (map snd names) (snd dn) dg) as (matched & rest & A). exists matched, rest.
  rewrite map_length in A. split.
  - destruct A as [A1 A2 A3 A4 A5 A6]. split; try assumption.
    + intros k i H. specialize (A5 k i H). rewrite map_nth in A5. exact A5.
    + intros k Hk Nk j. specialize (A6 k Hk Nk j). rewrite map_nth in A6. exact A6.
  - unfold name_fragments. destruct names as [|nm names]; [contradiction|]. set (L := nm :: names) in *.
    pose proof (pa_all _ _ _ _ _ _ A) as Pm. pose proof (pa_pads _ _ _ _ _ _ A) as [_ Fk]. pose proof (pa_out _ _ _ _ _ _ A) as O.
    rewrite O in Pm |- *. rewrite map_app, !map_map in Pm. cbn [snd] in Pm. rewrite map_id in Pm.
    assert (I : forall j, In j (map snd matched ++ rest) -> (j < length fragments)%nat) by (intros j Hj; apply (Permutation_in _ Pm), in_seq in Hj; lia).
    rewrite flat_map_app. f_equal.
    + rewrite (flat_map_single _ (fun ij => (match fst ij with None => fst (nth (snd ij) fragments dg) | Some i => fst (nth i L dn) end, snd (nth (snd ij) fragments dg)))).
      * rewrite map_map. reflexivity.
      * intros ij H. apply in_map_iff in H as ([k i] & <- & H). cbn [fst snd].
        rewrite (nth_error_nth' _ dg) by (apply I, in_or_app; left; apply (in_map snd) in H; exact H).
        rewrite (nth_error_nth' _ dn); [reflexivity|]. rewrite Forall_forall in Fk. apply Fk. apply (in_map fst) in H. exact H.
    + rewrite (flat_map_single _ (fun ij => nth (snd ij) fragments dg)).
      * rewrite map_map. reflexivity.
      * intros ij H. apply in_map_iff in H as (i & <- & H). cbn [fst snd].
        rewrite (nth_error_nth' _ dg) by (apply I, in_or_app; right; exact H). destruct (nth i fragments dg); reflexivity.
Qed.
Lemma name_perm {G} (hits : p2 -> G -> bool) fragments names : Permutation (map snd (name_fragments hits fragments names)) (map snd fragments).
Proof.
  destruct names as [|nm names]; [reflexivity|]. destruct fragments as [|f0 fr].
  { unfold name_fragments, assign_to_pad. cbn. constructor. }
  set (F := f0 :: fr). destruct (name_spec hits F (nm :: names) nm f0 ltac:(discriminate)) as (matched & rest & A & ->).
  pose proof (pa_all _ _ _ _ _ _ A) as Pm. rewrite (pa_out _ _ _ _ _ _ A), map_app, !map_map in Pm. cbn [snd] in Pm. rewrite map_id in Pm.
  rewrite map_app, !map_map. cbn [snd]. rewrite <- (map_map snd (fun i => snd (nth i F f0))), <- map_app.
  rewrite Pm. rewrite <- (map_map (fun i => nth i F f0) snd), nth_self. reflexivity.
Qed.

(** ** remove_overlaps *)
Section Overlaps.
Context {G X : Type} (sh : shapely G) (pts : G -> X -> Prop) (L : lawful sh pts).
Lemma step_spec p acc ni pi p' acc' : overlap_step sh (p, acc) (ni, pi) = (p', acc') ->
  exists pi', p' = p ++ [(ni, pi')] /\ (forall x, pts acc' x <-> pts acc x \/ pts pi x) /\ (forall x, pts pi' x -> pts pi x) /\
  (forall x, pts acc x \/ pts pi x <-> pts acc x \/ pts pi' x) /\
  forall g, (forall x, pts g x -> pts acc x) -> area sh (inter sh g pi') <= float32_eps.
Proof.
  unfold overlap_step. rewrite !(l_valid sh pts L). cbn [andb].
  assert (E0 : 0 <= float32_eps) by (unfold float32_eps; apply Rlt_le, Rinv_0_lt_compat, pow_lt; lra).
  destruct (Rlt_dec float32_eps (area sh (inter sh acc pi))) as [H|H]; intros [= <- <-]; eexists; (split; [reflexivity|]).
  - split; [|split; [|split]].
    + intros x. rewrite (l_union sh pts L), (l_diff sh pts L), (l_inter sh pts L). destruct (l_dec sh pts L acc x), (l_dec sh pts L pi x); tauto.
    + intros x. rewrite (l_diff sh pts L). tauto.
    + intros x. rewrite (l_diff sh pts L), (l_inter sh pts L). destruct (l_dec sh pts L acc x), (l_dec sh pts L pi x); tauto.
    + intros g Hg. apply Rle_trans with 0; [|exact E0]. rewrite <- (l_area_empty sh pts L). apply (l_area sh pts L). intros x.
      rewrite (l_inter sh pts L), (l_diff sh pts L), (l_inter sh pts L). intros [A [B C]]. exfalso. apply C. split; [apply Hg, A|exact B].
  - split; [|split; [|split]].
    + intros x. apply (l_union sh pts L).
    + tauto.
    + tauto.
    + intros g Hg. apply Rle_trans with (area sh (inter sh acc pi)); [|lra]. apply (l_area sh pts L). intros x. rewrite !(l_inter sh pts L). intros [A B]. split; [apply Hg, A|exact B].
Qed.
Lemma overlaps_loop self : forall p acc,
  (forall x, pts acc x <-> covered pts p x) ->
  exists out acc', fold_left (overlap_step sh) self (p, acc) = (p ++ out, acc') /\
  map fst out = map fst self /\ Forall2 (fun a b => forall x, pts (snd a) x -> pts (snd b) x) out self /\
  (forall x, pts acc' x <-> covered pts (p ++ out) x) /\ (forall x, pts acc' x <-> pts acc x \/ covered pts self x) /\
  (forall i j da, (i < j)%nat -> (length p <= j < length (p ++ out))%nat -> area sh (inter sh (snd (nth i (p ++ out) da)) (snd (nth j (p ++ out) da))) <= float32_eps).
Proof.
  induction self as [|[ni pi] self IH]; intros p acc Hacc.
  - exists [], acc. rewrite app_nil_r. cbn [fold_left map]. split; [reflexivity|]. split; [reflexivity|]. split; [constructor|]. split; [exact Hacc|].
    split; [intros x; split; [auto|]; intros [H|(n & g & [] & _)]; exact H|]. intros i j da Hij Hj. lia.
  - cbn [fold_left]. destruct (overlap_step sh (p, acc) (ni, pi)) as [p' acc'] eqn:E.
    destruct (step_spec _ _ _ _ _ _ E) as (pi' & -> & A & B & C & D).
    destruct (IH (p ++ [(ni, pi')]) acc') as (out & acc'' & E' & Nm & Sub & Cov & Cov' & Ov).
    { intros x. rewrite A, C. split.
      - intros [H|H]; [apply Hacc in H as (n & g & Hin & H); exists n, g; split; [apply in_or_app; left; exact Hin|exact H]|].
        exists ni, pi'. split; [apply in_or_app; right; left; reflexivity|exact H].
      - intros (n & g & Hin & H). apply in_app_or in Hin as [Hin|[[= <- <-]|[]]]; [left; apply Hacc; exists n, g; auto|right; exact H]. }
    rewrite <- app_assoc in E', Cov, Ov. cbn [app] in E', Cov, Ov.
    exists ((ni, pi') :: out), acc''. split; [exact E'|]. split; [cbn [map fst]; now rewrite Nm|]. split; [constructor; [exact B|exact Sub]|]. split; [exact Cov|]. split.
    + intros x. rewrite Cov', A. split.
      * intros [[H|H]|(n & g & Hin & H)]; [left; exact H|right; exists ni, pi; split; [left; reflexivity|exact H]|right; exists n, g; split; [right; exact Hin|exact H]].
      * intros [H|(n & g & [Eq|Hin] & H)]; [auto|injection Eq as <- <-; auto|]. right. exists n, g. auto.
    + intros i j da Hij Hj. destruct (Nat.eq_dec j (length p)) as [->|Nj].
      * rewrite (app_nth2 p _ da (le_n (length p))), Nat.sub_diag. cbn [nth snd]. rewrite app_nth1 by exact Hij.
        apply D. intros x Hx. apply Hacc. exists (fst (nth i p da)), (snd (nth i p da)). split; [|exact Hx]. rewrite <- surjective_pairing. apply nth_In, Hij.
      * apply Ov; [exact Hij|]. rewrite !app_length in *. cbn [length] in *. lia.
Qed.
Lemma overlaps_spec self : let out := remove_overlaps sh self in
  map fst out = map fst self /\ Forall2 (fun a b => forall x, pts (snd a) x -> pts (snd b) x) out self /\
  (forall x, covered pts out x <-> covered pts self x) /\
  (forall i j da, (i < j < length out)%nat -> area sh (inter sh (snd (nth i out da)) (snd (nth j out da))) <= float32_eps).
Proof.
  unfold remove_overlaps. destruct (overlaps_loop self [] (empty sh)) as (out & acc' & E & A & B & C & C' & D).
  - intros x. split; [intros H; destruct (l_empty sh pts L x H)|intros (n & g & [] & _)].
  - rewrite E. cbn [fst app]. cbn [app] in C, D. split; [exact A|]. split; [exact B|]. split.
    + intros x. rewrite <- C, C'. split; [intros [H|H]; [destruct (l_empty sh pts L x H)|exact H]|auto].
    + intros i j da Hij. apply D; [lia|cbn [length]; lia].
Qed.
End Overlaps.

(** ** from_data *)
Section FromData.
Context {G X : Type} (sh : shapely G) (dr : drawing G) (pts : G -> X -> Prop) (L : lawful sh pts) (F : faithful dr pts).
Lemma covered_app l1 l2 x : covered pts (l1 ++ l2) x <-> covered pts l1 x \/ covered pts l2 x.
Proof.
  split.
  - intros (n & g & H & P). apply in_app_or in H as [H|H]; [left|right]; exists n, g; auto.
  - intros [(n & g & H & P)|(n & g & H & P)]; exists n, g; (split; [apply in_or_app; auto|exact P]).
Qed.
Lemma covered_snd l x : covered pts l x <-> exists g, In g (map snd l) /\ pts g x.
Proof.
  split.
  - intros (n & g & H & P). exists g. split; [apply (in_map snd) in H; exact H|exact P].
  - intros (g & H & P). apply in_map_iff in H as ([n g'] & E & H). cbn in E. subst. exists n, g. auto.
Qed.
Lemma covered_named hits fr names x : covered pts (name_fragments hits fr names) x <-> covered pts fr x.
Proof.
  rewrite !covered_snd. split; intros (g & H & P); exists g; (split; [|exact P]); (eapply Permutation_in; [|exact H]); [apply name_perm|symmetry; apply name_perm].
Qed.
(** pieces of the polygons *)
Definition piece (polys : list (string * list p2)) (x : X) : Prop := exists np g, In np polys /\ In g (polygonize dr (snd np)) /\ pts g x.
Lemma add_polys_spec field0 polys st out : add_polys sh dr field0 polys st = Ok out ->
  (forall x, covered pts (fst out) x <-> covered pts (fst st) x \/ (piece polys x /\ pts field0 x)) /\
  (forall x, pts (snd out) x <-> pts (snd st) x /\ ~ (piece polys x /\ pts field0 x)).
Proof.
  unfold add_polys.
  assert (Inner : forall n gs st out, fold_left (fun st poly => bind st (fun st => if is_valid sh poly then
        let poly := inter sh (oriented dr poly) field0 in Ok (fst st ++ [(n, poly)], diff sh (snd st) poly) else Raise AssertionError)) gs (Ok st) = Ok out ->
     (forall x, covered pts (fst out) x <-> covered pts (fst st) x \/ ((exists g, In g gs /\ pts g x) /\ pts field0 x)) /\
     (forall x, pts (snd out) x <-> pts (snd st) x /\ ~ ((exists g, In g gs /\ pts g x) /\ pts field0 x))).
  { clear polys st out. intros n gs. induction gs as [|g gs IH]; intros st out; cbn [fold_left].
    - intros [= <-]. split; intros x; split; try tauto; [intros [H|((g & [] & _) & _)]; exact H|].
      intros H. split; [exact H|]. intros ((g & [] & _) & _).
    - cbn [bind]. rewrite (l_valid sh pts L). intros H. apply IH in H as [A B]. cbn [fst snd] in A, B. split; intros x.
      + rewrite A, covered_app. assert (C : covered pts [(n, inter sh (oriented dr g) field0)] x <-> pts g x /\ pts field0 x).
        { rewrite <- (f_oriented dr pts F g x), <- (l_inter sh pts L). split; [intros (m & h & [[= <- <-]|[]] & P); exact P|]. intros P. exists n, (inter sh (oriented dr g) field0). split; [left; reflexivity|exact P]. }
        rewrite C. split.
        * intros [[H|[H K]]|[(h & H & P) K]]; [auto|right; split; [exists g; split; [left; reflexivity|exact H]|exact K]|right; split; [exists h; split; [right; exact H|exact P]|exact K]].
        * intros [H|[(h & [->|H] & P) K]]; [auto|auto|]. right. split; [exists h; auto|exact K].
      + rewrite B, (l_diff sh pts L), (l_inter sh pts L), (f_oriented dr pts F). split.
        * intros [[H K] M]. split; [exact H|]. intros [(h & [->|N] & P) Q]; [tauto|]. apply M. split; [exists h; auto|exact Q].
        * intros [H K]. split; [split; [exact H|]|].
          -- intros [P Q]. apply K. split; [exists g; split; [left; reflexivity|exact P]|exact Q].
          -- intros [(h & N & P) Q]. apply K. split; [exists h; split; [right; exact N|exact P]|exact Q]. }
  assert (Bad : forall (n : string) gs e, fold_left (fun st poly => bind st (fun st => if is_valid sh poly then
        let poly := inter sh (oriented dr poly) field0 in Ok (fst st ++ [(n, poly)], diff sh (snd st) poly) else Raise AssertionError)) gs (Raise e) = Raise e).
  { intros n gs e. induction gs as [|g gs IH]; cbn; auto. }
  revert st. induction polys as [|np polys IH]; intros st.
  - cbn [fold_left]. intros [= <-]. split; intros x; split; try tauto; [intros [H|((np & g & [] & _) & _)]; exact H|].
    intros H. split; [exact H|]. intros ((np & g & [] & _) & _).
  - cbn [fold_left].
    destruct (fold_left _ (polygonize dr (snd np)) (Ok st)) as [st'|e] eqn:E.
    + intros H. apply Inner in E as [A B]. apply IH in H as [A' B']. split; intros x.
      * rewrite A', A. split.
        -- intros [[H|[(g & H & P) K]]|[(m & g & H & H' & P) K]]; [auto|right; split; [exists np, g; split; [left; reflexivity|auto]|exact K]|right; split; [exists m, g; split; [right; exact H|auto]|exact K]].
        -- intros [H|[(m & g & [->|H] & H' & P) K]]; [auto|left; right; split; [exists g; auto|exact K]|right; split; [exists m, g; auto|exact K]].
      * rewrite B', B. split.
        -- intros [[H K] M]. split; [exact H|]. intros [(m & g & [->|N] & H' & P) Q]; [apply K; split; [exists g; auto|exact Q]|apply M; split; [exists m, g; auto|exact Q]].
        -- intros [H K]. split; [split; [exact H|]|].
           ++ intros [(g & N & P) Q]. apply K. split; [exists np, g; split; [left; reflexivity|auto]|exact Q].
           ++ intros [(m & g & N & H' & P) Q]. apply K. split; [exists m, g; split; [right; exact N|auto]|exact Q].
    + clear IH. intros H. exfalso. revert H. clear -Bad. induction polys as [|m polys IH]; cbn [fold_left]; [discriminate|]. rewrite Bad. exact IH.
Qed.
Lemma cells_spec field0 gs field x : pts (fold_left (fun field poly => union sh field (inter sh poly field0)) gs field) x <->
  pts field x \/ ((exists g, In g gs /\ pts g x) /\ pts field0 x).
Proof.
  revert field. induction gs as [|g gs IH]; intros field; cbn [fold_left].
  - split; [auto|]. intros [H|((g & [] & _) & _)]. exact H.
  - rewrite IH, (l_union sh pts L), (l_inter sh pts L). split.
    + intros [[H|[H K]]|[(h & H & P) K]]; [auto|right; split; [exists g; split; [left; reflexivity|exact H]|exact K]|right; split; [exists h; split; [right; exact H|exact P]|exact K]].
    + intros [H|[(h & [->|H] & P) K]]; [auto|auto|]. right. split; [exists h; auto|exact K].
Qed.
Lemma from_data_cover polys gaps routes bridges names edge buffer out :
  from_data sh dr polys gaps routes bridges names edge buffer = Ok out ->
  forall x, covered pts out x <-> pts (square dr edge) x /\
    (piece polys x \/
     ((gaps <> [] \/ routes <> []) /\ ~ (routes <> [] /\ pts (buffered dr routes buffer) x) /\
      (~ (gaps <> [] /\ pts (buffered dr gaps buffer) x) \/
       (routes <> [] /\ bridges <> [] /\ exists g, In g (cells dr routes bridges) /\ pts g x)))).
Proof.
  unfold from_data. cbv zeta. set (field0 := square dr edge). set (f1 := if truthy gaps then _ else field0).
  assert (T : forall A (l : list A), truthy l = true <-> l <> []) by (intros A l; destruct l; cbn; split; congruence).
  assert (P1 : forall x, pts f1 x <-> pts field0 x /\ ~ (gaps <> [] /\ pts (buffered dr gaps buffer) x)).
  { intros x. unfold f1. destruct gaps as [|gp gaps]; cbn [truthy]; [split; [intros H; split; [exact H|intros [H' _]; congruence]|tauto]|]. rewrite (l_diff sh pts L).
    split; [intros [H K]; split; [exact H|tauto]|]. intros [H K]. split; [exact H|]. intros M. apply K. split; [discriminate|exact M]. }
  set (f2 := if truthy routes && truthy bridges then _ else f1).
  assert (P2 : forall x, pts f2 x <-> pts f1 x \/ ((routes <> [] /\ bridges <> [] /\ exists g, In g (cells dr routes bridges) /\ pts g x) /\ pts field0 x)).
  { intros x. unfold f2. destruct (truthy routes && truthy bridges) eqn:E.
    - apply andb_true_iff in E as [E1 E2]. apply T in E1. apply T in E2. rewrite cells_spec. tauto.
    - apply andb_false_iff in E. split; [auto|]. intros [H|[(N1 & N2 & _) _]]; [exact H|]. apply T in N1. apply T in N2. destruct E; congruence. }
  destruct (add_polys sh dr field0 polys ([], f2)) as [[fr f3]|e] eqn:E; [|discriminate]. cbn [bind].
  apply add_polys_spec in E as [A B]. cbn [fst snd] in A, B. rewrite (l_valid sh pts L). cbn [negb].
  set (f4 := if truthy routes then _ else f3).
  assert (P4 : forall x, pts f4 x <-> pts f3 x /\ ~ (routes <> [] /\ pts (buffered dr routes buffer) x)).
  { intros x. unfold f4. destruct routes as [|r routes]; cbn [truthy]; [split; [intros H; split; [exact H|intros [H' _]; congruence]|tauto]|]. rewrite (l_diff sh pts L).
    split; [intros [H K]; split; [exact H|tauto]|]. intros [H K]. split; [exact H|]. intros M. apply K. split; [discriminate|exact M]. }
  intros [= <-] x. rewrite covered_named, covered_app, A.
  assert (Z : ~ covered pts [] x) by (intros (n & g & [] & _)).
  assert (Lft : covered pts (map (fun i => (""%string, rounded dr buffer i)) (if negb (truthy gaps) && negb (truthy routes) then [] else members dr f4)) x <->
    (gaps <> [] \/ routes <> []) /\ pts f4 x).
  { destruct (negb (truthy gaps) && negb (truthy routes)) eqn:E.
    - apply andb_true_iff in E as [E1 E2]. apply negb_true_iff in E1. apply negb_true_iff in E2. split; [intros H; contradiction|].
      intros [[N|N] _]; apply T in N; congruence.
    - assert (gaps <> [] \/ routes <> []) as N.
      { apply andb_false_iff in E as [E|E]; apply negb_false_iff, T in E; auto. }
      split.
      + intros (n & g & Hin & P). apply in_map_iff in Hin as (b & [= <- <-] & Hin). split; [exact N|]. apply (f_members dr pts F). exists b. split; [exact Hin|]. apply (f_rounded dr pts F) in P. exact P.
      + intros [_ P]. apply (f_members dr pts F) in P as (b & Hin & P). exists ""%string, (rounded dr buffer b). split; [apply in_map_iff; exists b; auto|]. apply (f_rounded dr pts F), P. }
  rewrite Lft, P4, B, P2, P1. fold field0.
  assert (DP : piece polys x \/ ~ piece polys x).
  { clear -L. unfold piece. induction polys as [|np polys IH]; [right; intros (a & b & [] & _)|].
    assert (D : (exists g, In g (polygonize dr (snd np)) /\ pts g x) \/ ~ (exists g, In g (polygonize dr (snd np)) /\ pts g x)).
    { clear -L. induction (polygonize dr (snd np)) as [|g gs IH]; [right; intros (a & [] & _)|]. destruct (l_dec sh pts L g x) as [P|P]; [left; exists g; split; [left; reflexivity|exact P]|].
      destruct IH as [(h & H & Q)|IH]; [left; exists h; split; [right; exact H|exact Q]|]. right. intros (h & [->|H] & Q); [contradiction|]. apply IH. exists h. auto. }
    destruct D as [(g & H & Q)|D]; [left; exists np, g; split; [left; reflexivity|auto]|]. destruct IH as [(m & g & H & H' & Q)|IH]; [left; exists m, g; split; [right; exact H|auto]|].
    right. intros (m & g & [->|H] & H' & Q); [apply D; exists g; auto|]. apply IH. exists m, g. auto. }
  tauto.
Qed.
(** the fragments are the pieces of the polygons and the parts of the rest *)
Definition piece_list (field0 : G) (polys : list (string * list p2)) : list (string * G) :=
  flat_map (fun np => map (fun g => (fst np, inter sh (oriented dr g) field0)) (polygonize dr (snd np))) polys.
Lemma add_polys_list field0 polys : forall st out, add_polys sh dr field0 polys st = Ok out -> fst out = fst st ++ piece_list field0 polys.
Proof.
  unfold add_polys, piece_list.
  assert (Inner : forall (n : string) gs st, fold_left (fun st poly => bind st (fun st => if is_valid sh poly then
        let poly := inter sh (oriented dr poly) field0 in Ok (fst st ++ [(n, poly)], diff sh (snd st) poly) else Raise AssertionError)) gs (Ok st) =
     Ok (fst st ++ map (fun g => (n, inter sh (oriented dr g) field0)) gs, fold_left (fun f g => diff sh f (inter sh (oriented dr g) field0)) gs (snd st))).
  { intros n gs. induction gs as [|g gs IH]; intros st; cbn [fold_left map].
    - rewrite app_nil_r. destruct st; reflexivity.
    - cbn [bind]. rewrite (l_valid sh pts L). rewrite IH. cbn [fst snd]. rewrite <- app_assoc. reflexivity. }
  induction polys as [|np polys IH]; intros st out; cbn [fold_left flat_map].
  - intros [= <-]. now rewrite app_nil_r.
  - rewrite Inner. intros H. apply IH in H. rewrite H. cbn [fst]. now rewrite <- app_assoc.
Qed.
Lemma from_data_parts polys gaps routes bridges names edge buffer out :
  from_data sh dr polys gaps routes bridges names edge buffer = Ok out ->
  exists rest, Permutation (map snd out) (map snd (piece_list (square dr edge) polys) ++ rest) /\
  (names = [] -> out = piece_list (square dr edge) polys ++ map (fun g => (""%string, g)) rest) /\
  forall g x, In g rest -> pts g x -> ~ piece polys x.
Proof.
  unfold from_data. cbv zeta. set (field0 := square dr edge). set (f1 := if truthy gaps then _ else field0).
  set (f2 := if truthy routes && truthy bridges then _ else f1).
  assert (P0 : forall x, pts f2 x -> pts field0 x).
  { assert (P1 : forall x, pts f1 x -> pts field0 x) by (intros x; unfold f1; destruct (truthy gaps); [rewrite (l_diff sh pts L); tauto|auto]).
    intros x. unfold f2. destruct (truthy routes && truthy bridges); [rewrite cells_spec; intros [H|[_ H]]; auto|auto]. }
  destruct (add_polys sh dr field0 polys ([], f2)) as [[fr f3]|e] eqn:E; [|discriminate]. cbn [bind].
  pose proof (add_polys_list _ _ _ _ E) as Fr. apply add_polys_spec in E as [_ B]. cbn [fst snd app] in B, Fr. subst fr. rewrite (l_valid sh pts L). cbn [negb].
  set (f4 := if truthy routes then _ else f3).
  assert (P4 : forall x, pts f4 x -> pts f3 x) by (intros x; unfold f4; destruct (truthy routes); [rewrite (l_diff sh pts L); tauto|auto]).
  set (ms := if negb (truthy gaps) && negb (truthy routes) then [] else members dr f4).
  assert (M : forall g x, In g ms -> pts g x -> pts f4 x).
  { intros g x. unfold ms. destruct (negb (truthy gaps) && negb (truthy routes)); [intros H; destruct H|]. intros H P. apply (f_members dr pts F). exists g. auto. }
  intros [= <-]. exists (map (rounded dr buffer) ms). split; [|split].
  - rewrite name_perm, map_app, !map_map. reflexivity.
  - intros ->. cbn [name_fragments]. now rewrite map_map.
  - intros g x Hin P. apply in_map_iff in Hin as (b & <- & Hin). apply (f_rounded dr pts F) in P. specialize (M b x Hin P).
    apply P4, B in M as [H K]. intros Q. apply K. split; [exact Q|]. apply P0, H.
Qed.
End FromData.

(** ** from_system *)
Lemma insert_perm {A} (key : A -> R) x l : Permutation (insert_by key x l) (x :: l).
Proof. induction l as [|y l IH]; cbn; [reflexivity|]. destruct (Rle_dec _ _); [reflexivity|]. rewrite IH. apply perm_swap. Qed.
Lemma sort_perm {A} (key : A -> R) l : Permutation (sort_by key l) l.
Proof. induction l as [|x l IH]; cbn [sort_by fold_right]; [reflexivity|]. rewrite insert_perm. apply perm_skip, IH. Qed.
Lemma insert_sorted {A} (key : A -> R) x l : StronglySorted (fun a b => key a <= key b) l -> StronglySorted (fun a b => key a <= key b) (insert_by key x l).
Proof.
  induction 1 as [|y l S IH F]; cbn [insert_by]; [constructor; constructor|]. destruct (Rle_dec (key x) (key y)) as [H|H].
  - constructor; [constructor; assumption|]. constructor; [exact H|]. eapply Forall_impl; [|exact F]. cbn. intros a Ha. lra.
  - constructor; [exact IH|]. apply Forall_forall. intros a Ha. apply (Permutation_in _ (insert_perm key x l)) in Ha. destruct Ha as [<-|Ha]; [lra|]. rewrite Forall_forall in F. apply F, Ha.
Qed.
Lemma sort_sorted {A} (key : A -> R) l : StronglySorted (fun a b => key a <= key b) (sort_by key l).
Proof. induction l as [|x l IH]; cbn [sort_by fold_right]; [constructor|]. apply insert_sorted, IH. Qed.

Definition isdone (done : list nat) (i : nat) : bool := existsb (Nat.eqb i) done.
Lemma isdone_app done i j : isdone (done ++ [i]) j = (isdone done j || (j =? i)%nat)%bool.
Proof. unfold isdone. rewrite existsb_app. cbn [existsb]. now rewrite orb_false_r. Qed.
(** what the loop over the interiors picks: the ones not done, smaller and
    contained *)
Definition picks (contains : list p2 -> list p2 -> bool) (exta : R) (ext : list p2) (done : list nat) (ki : nat * (R * list p2)) : bool :=
  negb (isdone done (fst ki)) && (if Rlt_dec (fst (snd ki)) exta then true else false) && contains ext (snd (snd ki)).
Lemma interior_loop_spec contains exta ext : forall ints i gint done,
  StronglySorted (fun a b : R * list p2 => fst a <= fst b) ints ->   interior_loop contains exta ext i ints gint done =
  let picked := filter (picks contains exta ext done) (combine (seq i (length ints)) ints) in
  (gint ++ map (fun ki => snd (snd ki)) picked, done ++ map fst picked).
Proof.
  intros ints i gint done. revert i gint done. induction ints as [|[inta it] ints IH]; intros i gint done S; cbn [interior_loop length seq combine filter map].
  - now rewrite !app_nil_r.
  - inversion S as [|? ? S' F]; subst. cbn [fst] in F.
    assert (Ext : forall done' l, (forall k, In k l -> isdone done' (fst k) = isdone done (fst k)) -> filter (picks contains exta ext done') l = filter (picks contains exta ext done) l).
    { intros done' l H. apply filter_ext_in. intros k Hk. unfold picks. now rewrite H. }
    cbv zeta. change (picks contains exta ext done (i, (inta, it))) with (negb (isdone done i) && (if Rlt_dec inta exta then true else false) && contains ext it)%bool. fold (isdone done i).
    destruct (isdone done i) eqn:D; cbn [negb andb]; [apply (IH (Datatypes.S i) gint done S')|].
    destruct (Rle_dec exta inta) as [H|H].
    + destruct (Rlt_dec inta exta); [lra|]. cbn [andb].
      assert (filter (picks contains exta ext done) (combine (seq (Datatypes.S i) (length ints)) ints) = []) as ->.
      { assert (forall k, In k (combine (seq (Datatypes.S i) (length ints)) ints) -> picks contains exta ext done k = false) as N.
        { intros [k [ia it']] Hk. apply in_combine_r in Hk. rewrite Forall_forall in F. apply F in Hk. cbn [fst] in Hk. unfold picks. cbn [fst snd]. destruct (Rlt_dec ia exta); [lra|]. now rewrite andb_false_r. }
        induction (combine _ ints) as [|k l IHl]; [reflexivity|]. cbn [filter]. rewrite N by (left; reflexivity). apply IHl. intros k' Hk'. apply N. right. exact Hk'. }
      cbn [map]. now rewrite !app_nil_r.
    + destruct (Rlt_dec inta exta); [|lra]. cbn [andb]. destruct (contains ext it).
      * rewrite (IH (Datatypes.S i) _ _ S'). cbv zeta. cbn [map fst snd]. rewrite <- !app_assoc. cbn [app].
        rewrite (Ext (done ++ [i])); [reflexivity|]. intros [k y] Hk. apply in_combine_l, in_seq in Hk. cbn [fst]. rewrite isdone_app.
        destruct (Nat.eqb_spec k i); [lia|]. apply orb_false_r.
      * apply (IH (Datatypes.S i) gint done S').
Qed.
Lemma partition_perm {A} (f : A -> bool) l : Permutation l (filter f l ++ filter (fun x => negb (f x)) l).
Proof.
  induction l as [|x l IH]; cbn [filter]; [constructor|]. destruct (f x); cbn [negb app]; [apply perm_skip, IH|].
  rewrite IH at 1. apply Permutation_middle.
Qed.
Definition left_of (done : list nat) (l : list (nat * (R * list p2))) := filter (fun ki => negb (isdone done (fst ki))) l.
Lemma isdone_in done i : isdone done i = true <-> In i done.
Proof. unfold isdone. rewrite existsb_exists. split; [intros (x & H & E); apply Nat.eqb_eq in E; now subst|]. intros H. exists i. split; [exact H|apply Nat.eqb_refl]. Qed.
Lemma left_of_picked contains exta ext done l : NoDup (map fst l) ->
  let picked := filter (picks contains exta ext done) l in
  Permutation (left_of done l) (picked ++ left_of (done ++ map fst picked) l) /\
  forall ki, In ki (left_of (done ++ map fst picked) l) <-> In ki (left_of done l) /\ ~ (fst (snd ki) < exta /\ contains ext (snd (snd ki)) = true).
Proof.
  intros N picked.
  assert (E : left_of (done ++ map fst picked) l = filter (fun ki => negb (picks contains exta ext done ki)) (left_of done l)).
  { unfold left_of. rewrite (filter_ext_in _ (fun ki => negb (isdone done (fst ki)) && negb (picks contains exta ext done ki))).
    - clear. induction l as [|k l IH]; cbn [filter]; [reflexivity|]. destruct (negb (isdone done (fst k))); cbn [filter andb]; [|exact IH].
      destruct (negb (picks contains exta ext done k)); [f_equal; exact IH|exact IH].
    - intros k Hk. unfold isdone. rewrite existsb_app. fold (isdone done (fst k)). fold (isdone (map fst picked) (fst k)). rewrite negb_orb. f_equal. f_equal.
      destruct (picks contains exta ext done k) eqn:P.
      + apply isdone_in. apply in_map. apply filter_In. auto.
      + destruct (isdone (map fst picked) (fst k)) eqn:D; [|reflexivity]. exfalso. apply isdone_in, in_map_iff in D as (k' & Ek & Hk'). apply filter_In in Hk' as [Hk' Pk'].
        assert (k' = k) as ->; [|congruence]. clear -N Hk Hk' Ek. induction l as [|y l IH]; [destruct Hk|]. cbn [map] in N. inversion N as [|? ? Ny Nl]; subst.
        destruct Hk as [->|Hk], Hk' as [->|Hk']; [reflexivity| | |apply IH; assumption]; exfalso; apply Ny; [rewrite <- Ek|rewrite Ek]; apply in_map; assumption. }
  rewrite E. split.
  - assert (filter (picks contains exta ext done) (left_of done l) = picked) as <-; [|apply partition_perm].
    unfold picked, left_of. clear. induction l as [|k l IH]; cbn [filter]; [reflexivity|]. unfold picks at 2. destruct (negb (isdone done (fst k))) eqn:D; cbn [filter andb].
    + unfold picks at 1. rewrite D. cbn [andb]. destruct (_ && _); [f_equal; exact IH|exact IH].
    + exact IH.
  - intros ki. rewrite filter_In. split; intros [A B]; (split; [exact A|]).
    + unfold left_of in A. apply filter_In in A as [_ A]. apply negb_true_iff in B. intros [C D]. unfold picks in B. rewrite A, D in B. destruct (Rlt_dec _ _); [discriminate B|contradiction].
    + apply negb_true_iff. unfold picks. destruct (Rlt_dec (fst (snd ki)) exta) as [C|C]; [|now rewrite andb_false_r]. destruct (contains ext (snd (snd ki))) eqn:D; [|apply andb_false_r]. exfalso. auto.
Qed.
Lemma exterior_loop_spec contains ints : StronglySorted (fun a b : R * list p2 => fst a <= fst b) ints ->
  forall exts done, StronglySorted (fun a b : R * list p2 => fst a <= fst b) exts ->
  let all := combine (seq 0 (length ints)) ints in
  let gs := exterior_loop contains exts ints done in
  map exterior gs = map snd exts /\
  exists free, Permutation (flat_map interiors gs ++ map (fun ki => snd (snd ki)) free) (map (fun ki => snd (snd ki)) (left_of done all)) /\
  (forall ki, In ki free -> In ki (left_of done all) /\ forall e, In e exts -> ~ (fst (snd ki) < fst e /\ contains (snd e) (snd (snd ki)) = true)) /\
  forall g it, In g gs -> In it (interiors g) -> exists ki e, In ki (left_of done all) /\ In e exts /\ snd (snd ki) = it /\ snd e = exterior g /\
    fst (snd ki) < fst e /\ contains (snd e) it = true /\
    forall e', In e' exts -> fst (snd ki) < fst e' -> contains (snd e') it = true -> fst e <= fst e'.
Proof.
  intros Si exts. induction exts as [|[exta ext] exts IH]; intros done Se all gs.
  - split; [reflexivity|]. exists (left_of done all). split; [reflexivity|]. split; [|intros g it []].
    intros ki H. split; [exact H|]. intros e [].
  - inversion Se as [|? ? Se' Fe]; subst. unfold gs. cbn [exterior_loop]. rewrite interior_loop_spec by auto. cbv zeta. cbn [app].
    fold all. set (picked := filter (picks contains exta ext done) all).
    assert (N : NoDup (map fst all)).
    { unfold all. assert (map fst (combine (seq 0 (length ints)) ints) = seq 0 (length ints)) as ->; [|apply seq_NoDup].
      generalize 0%nat. clear. induction ints as [|x l IHl]; intros n; cbn; [reflexivity|]. now rewrite IHl. }
    destruct (left_of_picked contains exta ext done all N) as [Pm Lf]. fold picked in Pm, Lf.
    destruct (IH (done ++ map fst picked) Se') as (A & free & B & C & D). fold all in B, C, D.
    cbn [map exterior snd]. split; [f_equal; exact A|]. exists free. cbn [flat_map interiors]. split; [|split].
    + rewrite <- app_assoc, B, <- map_app. apply Permutation_map. symmetry. exact Pm.
    + intros ki H. destruct (C ki H) as [C1 C2]. apply Lf in C1 as [C1 C3]. split; [exact C1|]. intros e [<-|He]; [exact C3|apply C2, He].
    + intros g it [<-|Hg] Hit.
      * cbn [interiors] in Hit. apply in_map_iff in Hit as (ki & <- & Hk).
        assert (In ki (left_of done all)) as Hl by (apply (Permutation_in _ (Permutation_sym Pm)), in_or_app; left; exact Hk).
        unfold picked in Hk. apply filter_In in Hk as [Hk Pk].
        unfold picks in Pk. apply andb_true_iff in Pk as [Pk Pc]. apply andb_true_iff in Pk as [_ Pl]. destruct (Rlt_dec (fst (snd ki)) exta) as [Hlt|]; [|discriminate].
        exists ki, (exta, ext). cbn [fst snd exterior]. split; [exact Hl|]. split; [left; reflexivity|]. do 4 (split; [auto|]).
        intros e' [<-|He'] _ _; [apply Rle_refl|]. rewrite Forall_forall in Fe. apply Fe in He'. exact He'.
      * destruct (D g it Hg Hit) as (ki & e & D1 & D2 & D3 & D4 & D5 & D6 & D7). apply Lf in D1 as [D1 D8].
        exists ki, e. split; [exact D1|]. split; [right; exact D2|]. do 4 (split; [assumption|]).
        intros e' [<-|He'] H1 H2; [|apply D7; assumption]. exfalso. apply D8. rewrite D3. auto.
Qed.
Lemma combine_snd {A B} (l : list A) (l' : list B) : length l = length l' -> map snd (combine l l') = l'.
Proof. revert l'. induction l as [|x l IH]; intros [|y l'] H; cbn in *; try discriminate; [reflexivity|]. f_equal. apply IH. lia. Qed.
Definition b_ccw (p : list p2) : bool := if Rlt_dec 0 (signed_area p) then true else false.
Definition b_cw (p : list p2) : bool := if Rlt_dec (signed_area p) 0 then true else false.
Lemma exts_perm paths : Permutation (map snd (exts_of paths)) (filter b_ccw paths).
Proof.
  unfold exts_of. rewrite (Permutation_map snd (sort_perm _ _)), map_map. cbn [snd]. rewrite map_id.
  rewrite (filter_ext _ b_ccw); [reflexivity|]. intros p. unfold b_ccw. now rewrite ac_area.
Qed.
Lemma ints_perm paths : Permutation (map snd (ints_of paths)) (filter b_cw paths).
Proof.
  unfold ints_of. rewrite (Permutation_map snd (sort_perm _ _)), map_map. cbn [snd]. rewrite map_id.
  rewrite (filter_ext _ b_cw); [reflexivity|]. intros p. unfold b_cw. now rewrite ac_area.
Qed.
Lemma sized l e : In e (sort_by fst (map (fun p => (Rabs (fst (area_centroid p)), p)) l)) -> fst e = size (snd e) /\ In (snd e) l.
Proof.
  intros H. apply (Permutation_in _ (sort_perm _ _)), in_map_iff in H as (p & <- & H). cbn [fst snd]. rewrite ac_area. auto.
Qed.
Lemma contours_spec contains paths : let gs := contours contains paths in
  Permutation (map exterior gs) (filter b_ccw paths) /\
  StronglySorted (fun a b => size a <= size b) (map exterior gs) /\
  exists free, Permutation (flat_map interiors gs ++ free) (filter b_cw paths) /\
  (forall it, In it free -> forall e, In e paths -> ccw_path e -> ~ encloses contains e it) /\
  forall g it, In g gs -> In it (interiors g) -> encloses contains (exterior g) it /\
    forall e, In e paths -> ccw_path e -> encloses contains e it -> size (exterior g) <= size e.
Proof.
  intros gs. unfold gs, contours.
  destruct (exterior_loop_spec contains (ints_of paths) (sort_sorted _ _) (exts_of paths) [] (sort_sorted _ _)) as (A & free & B & C & D).
  set (all := combine (seq 0 (length (ints_of paths))) (ints_of paths)) in *.
  assert (L0 : left_of [] all = all).
  { unfold left_of. generalize all. intros l. induction l as [|k l IHl]; [reflexivity|]. cbn [filter isdone existsb negb]. f_equal. exact IHl. }
  rewrite L0 in B, C, D.
  assert (Sz : forall e, In e (exts_of paths) -> fst e = size (snd e)) by (intros e He; apply (sized _ _ He)).
  assert (Si : forall ki, In ki all -> fst (snd ki) = size (snd (snd ki))).
  { intros [k i] Hk. apply in_combine_r in Hk. apply (sized _ _ Hk). }
  assert (Ex : forall e, In e paths -> ccw_path e -> exists x, In x (exts_of paths) /\ snd x = e).
  { intros e He Hc. assert (In e (map snd (exts_of paths))) as H.
    { apply (Permutation_in _ (Permutation_sym (exts_perm paths))), filter_In. split; [exact He|]. unfold b_ccw. destruct (Rlt_dec _ _); [reflexivity|contradiction]. }
    apply in_map_iff in H as (x & E & H). exists x. auto. }
  rewrite A. split; [apply exts_perm|]. split.
  - assert (S := sort_sorted fst (map (fun p => (Rabs (fst (area_centroid p)), p)) (filter (fun p => if Rlt_dec 0 (fst (area_centroid p)) then true else false) paths))).
    fold (exts_of paths) in S. clear -S Sz. induction S as [|x l S IH F]; cbn [map]; constructor.
    + apply IH. intros e He. apply Sz. right. exact He.
    + apply Forall_forall. intros p Hp. apply in_map_iff in Hp as (y & <- & Hy). rewrite Forall_forall in F. rewrite <- !Sz by (cbn; auto). apply F, Hy.
  - exists (map (fun ki => snd (snd ki)) free). split; [|split].
    + rewrite B, <- (map_map snd snd). unfold all. rewrite combine_snd by apply seq_length. apply ints_perm.
    + intros it Hit e He Hc [E1 E2]. apply in_map_iff in Hit as (ki & <- & Hk). destruct (C ki Hk) as [C1 C2].
      destruct (Ex e He Hc) as (x & Hx & <-). apply (C2 x Hx). rewrite (Si ki C1), (Sz x Hx). auto.
    + intros g it Hg Hit. destruct (D g it Hg Hit) as (ki & e & D1 & D2 & D3 & D4 & D5 & D6 & D7).
      rewrite (Si ki D1), D3 in D5, D7. rewrite (Sz e D2) in D5. rewrite D4 in D5, D6. split; [split; assumption|].
      intros e' He' Hc' [E1 E2]. destruct (Ex e' He' Hc') as (x & Hx & <-). specialize (D7 x Hx). rewrite (Sz x Hx), (Sz e D2), D4 in D7. apply D7; assumption.
Qed.
Lemma from_system_spec {G} contains ok (uu : list polygon -> G) system :
  from_system contains ok uu system =
  flat_map (fun e => match egeom e with
    | EPolygon paths _ _ => if existsb b_ccw paths then [(ename e, uu (filter ok (contours contains paths)))] else []
    | _ => [] end) system.
Proof.
  unfold from_system. apply flat_map_ext. intros e. destruct (egeom e) as [| paths ? ? | | |]; try reflexivity.
  assert (truthy (exts_of paths) = existsb b_ccw paths) as ->; [|reflexivity].
  pose proof (exts_perm paths) as P. destruct (existsb b_ccw paths) eqn:E.
  - apply existsb_exists in E as (p & Hp & Cp). assert (In p (map snd (exts_of paths))) as H by (apply (Permutation_in _ (Permutation_sym P)), filter_In; auto).
    destruct (exts_of paths); [destruct H|reflexivity].
  - destruct (exts_of paths) as [|x l]; [reflexivity|]. exfalso. assert (In (snd x) (filter b_ccw paths)) as H by (apply (Permutation_in _ P); left; reflexivity).
    apply filter_In in H as [H1 H2]. assert (existsb b_ccw paths = true) by (apply existsb_exists; exists (snd x); auto). congruence.
Qed.
