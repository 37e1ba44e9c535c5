(** C35, continued: which systems can be grouped. *)
From Verif Require Import Base ModelUtils ModelField ModelCons SpecField SpecCons ProofField ProofSys ProofGrid ProofCons ProofGroup.
Open Scope R_scope.
Notation length := List.length.

Lemma collect_raises {A} e (l : list (res A)) : (forall x, In x l -> x = Raise e \/ exists a, x = Ok a) -> In (Raise e) l -> collect l = Raise e.
Proof.
  induction l as [|x l IH]; intros H I; [destruct I|]. cbn [collect]. destruct (H x (or_introl eq_refl)) as [->|(a & ->)]; [reflexivity|].
  cbn [bind]. destruct I as [I|I]; [discriminate I|]. rewrite IH; [reflexivity|intros y Hy; apply H; right; exact Hy|exact I].
Qed.
Lemma collect_either {A} e (l : list (res A)) : (forall x, In x l -> x = Raise e \/ exists a, x = Ok a) -> collect l = Raise e \/ exists a, collect l = Ok a.
Proof.
  induction l as [|x l IH]; intros H; [right; exists []; reflexivity|]. cbn [collect]. destruct (H x (or_introl eq_refl)) as [->|(a & ->)]; [left; reflexivity|].
  cbn [bind]. destruct IH as [->|(b & ->)]; [intros y Hy; apply H; right; exact Hy|left; reflexivity|right; exists (a :: b); reflexivity].
Qed.
Lemma group_other s thr vs : length vs = length s -> ~ Forall is_polygon s -> group s thr (Some vs) = Raise AttributeError.
Proof.
  intros Hl HP. unfold group.
  assert (Q : forall j, In j (seq 0 (length vs)) -> let r := bind (py_index s (Z.of_nat j)) (fun el => bind (paths_of el) (fun ps => Ok (el, ps))) in
    (is_polygon (nth j s dflt) -> exists a, r = Ok a) /\ (~ is_polygon (nth j s dflt) -> r = Raise AttributeError)).
  { intros j Hj. apply in_seq in Hj. cbv zeta. rewrite py_index_nat, (nth_error_nth' s dflt) by lia. cbn [bind]. unfold paths_of, is_polygon.
    destruct (egeom (nth j s dflt)); cbn [bind]; (split; [try contradiction; eauto|try tauto; reflexivity]). }
  assert (D : forall e, is_polygon e \/ ~ is_polygon e) by (intros e; unfold is_polygon; destruct (egeom e); tauto).
  assert (B : forall bin, let l := map (fun j => bind (py_index s (Z.of_nat j)) (fun el => bind (paths_of el) (fun ps => Ok (el, ps)))) (filter (fun j => in_range bin (nth j vs 0)) (seq 0 (length vs))) in
    forall x, In x l -> x = Raise AttributeError \/ exists a, x = Ok a).
  { intros bin l x Hx. apply in_map_iff in Hx as (j & <- & Hj). apply filter_In in Hj as [Hj _]. destruct (Q j Hj) as [Q1 Q2]. destruct (D (nth j s dflt)); auto. }
  apply collect_raises.
  - intros x Hx. apply in_map_iff in Hx as (bin & <- & _). unfold group_bin. destruct (collect_either _ _ (B bin)) as [->|(a & ->)]; [left; reflexivity|right; eexists; reflexivity].
  - assert (exists j, (j < length s)%nat /\ ~ is_polygon (nth j s dflt)) as (j & Hj & Nj).
    { clear -HP D. induction s as [|e s IH]; [destruct HP; constructor|]. destruct (D e) as [P|N]; [|exists 0%nat; cbn; split; [lia|exact N]].
      destruct IH as (j & Hj & Nj); [intros F; apply HP; constructor; assumption|]. exists (S j). cbn. split; [lia|exact Nj]. }
    destruct (bin_exists thr (nth j vs 0)) as (i & H1 & H2 & H3). apply in_map_iff. exists (nth i (bins thr) (None, None)). split; [|apply nth_In; rewrite bins_length; lia].
    unfold group_bin. rewrite (collect_raises AttributeError); [reflexivity|exact (B _)|]. apply in_map_iff. exists j.
    assert (Ij : In j (seq 0 (length vs))) by (apply in_seq; lia). split; [exact (proj2 (Q j Ij) Nj)|]. apply filter_In. split; [exact Ij|].
    apply in_range_bin; [exact H1|]. split; [exact H1|]. split; [intros k ->; apply H2; lia|exact H3].
Qed.

(** System.group raises AttributeError if any electrode is not a polygon electrode, whatever
    the thresholds. *)
Theorem C35_other : forall s thr vs, length vs = length s -> (exists e, In e s /\ ~ is_polygon e) -> group s thr (Some vs) = Raise AttributeError.
Proof. intros s thr vs L (e & I & N). apply group_other; [exact L|]. rewrite Forall_forall. intros H. exact (N (H e I)). Qed.
Print Assumptions C35_other.
Example C35_case_other : let s := [Electrode "a" 1 0 (EPolygon [[(0, 0); (1, 0); (0, 1)]] 0 50); Electrode "b" 2 0 (EPoint [((0, 0), 1)] 0 50)] in
  length [1; 2] = length s /\ exists e, In e s /\ ~ is_polygon e.
Proof. split; [reflexivity|]. eexists. split; [right; left; reflexivity|]. intros []. Qed.
