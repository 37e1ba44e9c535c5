From Verif Require Import Base ModelVolt SpecVolt.
Open Scope R_scope.

Lemma upd_same h l e : upd h l e l = e.
Proof. unfold upd. now rewrite Nat.eqb_refl. Qed.
Lemma upd_other h l e l' : l' <> l -> upd h l e l' = h l'.
Proof. intros H. unfold upd. apply Nat.eqb_neq in H. now rewrite H. Qed.

Lemma not_written_nil_l {V} (vs : list V) l : not_written [] vs l.
Proof. intros j Hj. destruct j; discriminate. Qed.
Lemma not_written_nil_r {V} ls l : not_written ls (@nil V) l.
Proof. intros j Hj. now destruct j. Qed.
Lemma written_last_nil_r {V} ls l (v : V) : ~ written_last ls [] l v.
Proof. intros (i & _ & H & _). now destruct i. Qed.
Lemma written_last_nil_l {V} vs l (v : V) : ~ written_last [] vs l v.
Proof. intros (i & H & _). now destruct i. Qed.

Lemma not_written_cons {V} l0 ls (v0 : V) vs l :
  not_written (l0 :: ls) (v0 :: vs) l <-> l0 <> l /\ not_written ls vs l.
Proof.
  split.
  - intros H. split.
    + intros ->. specialize (H 0%nat eq_refl). discriminate.
    + intros j Hj. exact (H (S j) Hj).
  - intros [H1 H2] [|j] Hj; cbn in *.
    + congruence.
    + auto.
Qed.

Lemma written_last_cons {V} l0 ls (v0 : V) vs l v :
  written_last (l0 :: ls) (v0 :: vs) l v <->
  written_last ls vs l v \/ (not_written ls vs l /\ l0 = l /\ v0 = v).
Proof.
  split.
  - intros ([|i] & H1 & H2 & H3); cbn in *.
    + right. repeat split; try congruence.
      intros j Hj. apply (H3 (S j)); [lia|exact Hj].
    + left. exists i. repeat split; auto.
      intros j Hij Hj. apply (H3 (S j)); [lia|exact Hj].
  - intros [(i & H1 & H2 & H3) | (Hn & -> & ->)].
    + exists (S i). repeat split; auto.
      intros [|j] Hij Hj; [lia|]. apply (H3 j); [lia|exact Hj].
    + exists 0%nat. repeat split; auto.
      intros [|j] Hij Hj; [lia|]. now apply Hn.
Qed.

Lemma written_dec {V} ls (vs : list V) l :
  not_written ls vs l \/ exists v, written_last ls vs l v.
Proof.
  revert vs. induction ls as [|l0 ls IH]; intros vs.
  - left. apply not_written_nil_l.
  - destruct vs as [|v0 vs]; [left; apply not_written_nil_r|].
    destruct (IH vs) as [Hn | [v Hv]].
    + destruct (Nat.eq_dec l0 l) as [->|Hne].
      * right. exists v0. apply written_last_cons. right. auto.
      * left. apply not_written_cons. auto.
    + right. exists v. apply written_last_cons. auto.
Qed.

Section ZW.
Context {V A B : Type} (w : V -> eattrs -> eattrs) (get : eattrs -> V)
  (s1 : eattrs -> A) (s2 : eattrs -> B).
Hypothesis Hget : forall v e, get (w v e) = v.
Hypothesis Hs1 : forall v e, s1 (w v e) = s1 e.
Hypothesis Hs2 : forall v e, s2 (w v e) = s2 e.

Lemma zip_write_assigned ls : forall vs f h,
  assigned get s1 s2 ls vs h (fst (zip_write w ls vs f h)).
Proof.
  induction ls as [|l0 ls IH]; intros vs f h l; cbn [zip_write].
  - repeat split; auto. intros v Hv. now apply written_last_nil_l in Hv.
  - destruct vs as [|v0 vs]; cbn [fst].
    + repeat split; auto. intros v Hv. now apply written_last_nil_r in Hv.
    + destruct (IH vs f (upd h l0 (w v0 (h l0))) l) as (E1 & E2 & E3 & E4).
      rewrite E1, E2. repeat split.
      * unfold upd. destruct (Nat.eqb_spec l l0); subst; auto.
      * unfold upd. destruct (Nat.eqb_spec l l0); subst; auto.
      * intros Hn. apply not_written_cons in Hn. destruct Hn as [Hne Hn].
        rewrite (E3 Hn). rewrite upd_other; auto.
      * intros v Hv. apply written_last_cons in Hv.
        destruct Hv as [Hv | (Hn & -> & ->)]; [auto|].
        rewrite (E3 Hn), upd_same. apply Hget.
Qed.

Lemma zip_write_ok ls : forall vs f h,
  f = None \/ (List.length ls <= List.length vs)%nat ->
  snd (zip_write w ls vs f h) = None.
Proof.
  induction ls as [|l0 ls IH]; intros vs f h H; cbn [zip_write]; [reflexivity|].
  destruct vs as [|v0 vs]; cbn [snd].
  - destruct H as [H|H]; [exact H|cbn in H; lia].
  - apply IH. destruct H as [H|H]; [auto|right; cbn in H; lia].
Qed.

Lemma zip_write_fails ls : forall vs e h,
  (List.length vs < List.length ls)%nat ->
  snd (zip_write w ls vs (Some e) h) = Some e.
Proof.
  induction ls as [|l0 ls IH]; intros vs e h H; cbn [zip_write]; cbn in H; [lia|].
  destruct vs as [|v0 vs]; cbn [snd]; [reflexivity|].
  apply IH. cbn in H; lia.
Qed.

(** writing back the values read from a heap that agrees on the list *)
Lemma zip_write_restore ls h0 f h : forall l,
  In l ls ->
  get (fst (zip_write w ls (map (fun x => get (h0 x)) ls) f h) l) = get (h0 l).
Proof.
  intros l Hl.
  destruct (zip_write_assigned ls (map (fun x => get (h0 x)) ls) f h l)
    as (_ & _ & _ & E).
  destruct (written_dec ls (map (fun x => get (h0 x)) ls) l) as [Hn|[v Hv]].
  - exfalso. apply In_nth_error in Hl. destruct Hl as [i Hi].
    specialize (Hn i Hi). rewrite nth_error_map, Hi in Hn. discriminate.
  - rewrite (E v Hv). destruct Hv as (i & H1 & H2 & _).
    rewrite nth_error_map, H1 in H2. cbn in H2. congruence.
Qed.

Lemma zip_write_notin ls vs f h l : ~ In l ls ->
  get (fst (zip_write w ls vs f h) l) = get (h l).
Proof.
  intros Hl. destruct (zip_write_assigned ls vs f h l) as (_ & _ & E & _).
  apply E. intros j Hj. exfalso. apply Hl. eapply nth_error_In; eauto.
Qed.
End ZW.

Definition dc_assigned := fun ls vs h => zip_write_assigned w_dc e_dc e_name e_rf
  (fun _ _ => eq_refl) (fun _ _ => eq_refl) (fun _ _ => eq_refl) ls vs None h.

Ltac zw w get s1 s2 := 
  (apply (zip_write_assigned w get s1 s2 (fun _ _ => eq_refl) (fun _ _ => eq_refl)
     (fun _ _ => eq_refl))).

(** ** C03 *)
Lemma set_dcs_spec s v : assignable (List.length (members s)) v ->
  exists s', set_dcs s v = (s', None) /\ members s' = members s /\
    assigned e_dc e_rf e_name (members s) (values (Some v)) (store s) (store s').
Proof.
  destruct v as [|vs f]; cbn [assignable]; [tauto|]. intros H.
  unfold set_dcs, set_attr. eexists. split; [|split].
  - rewrite (zip_write_ok w_dc); auto.
  - reflexivity.
  - cbn. zw w_dc e_dc e_rf e_name.
Qed.
Lemma set_rfs_spec s v : assignable (List.length (members s)) v ->
  exists s', set_rfs s v = (s', None) /\ members s' = members s /\
    assigned e_rf e_dc e_name (members s) (values (Some v)) (store s) (store s').
Proof.
  destruct v as [|vs f]; cbn [assignable]; [tauto|]. intros H.
  unfold set_rfs, set_attr. eexists. split; [|split].
  - rewrite (zip_write_ok w_rf); auto.
  - reflexivity.
  - cbn. zw w_rf e_rf e_dc e_name.
Qed.
Lemma set_names_spec s v : assignable (List.length (members s)) v ->
  exists s', set_names s v = (s', None) /\ members s' = members s /\
    assigned e_name e_dc e_rf (members s) (values (Some v)) (store s) (store s').
Proof.
  destruct v as [|vs f]; cbn [assignable]; [tauto|]. intros H.
  unfold set_names, set_attr. eexists. split; [|split].
  - rewrite (zip_write_ok w_name); auto.
  - reflexivity.
  - cbn. zw w_name e_name e_dc e_rf.
Qed.

Lemma written_last_nodup {V} ls (vs : list V) i l v : NoDup ls ->
  nth_error ls i = Some l -> nth_error vs i = Some v -> written_last ls vs l v.
Proof.
  intros Hn H1 H2. exists i. repeat split; auto.
  intros j Hij Hj. exfalso.
  assert (i = j); [|lia].
  rewrite NoDup_nth_error in Hn. apply Hn; [|congruence].
  apply nth_error_Some. congruence.
Qed.

(** reading back after writing: the first components come from the
    assignment, the rest is unchanged (distinct electrode objects) *)
Lemma get_set_dcs s v s' : NoDup (members s) ->
  assignable (List.length (members s)) v -> set_dcs s v = (s', None) ->
  forall i, (i < List.length (members s))%nat ->
  nth_error (get_dcs s') i =
    match nth_error (values (Some v)) i with
    | Some x => Some x
    | None => nth_error (get_dcs s) i
    end.
Proof.
  intros Hn Ha Hs i Hi. destruct (set_dcs_spec s v Ha) as (s2 & E & Em & As).
  rewrite E in Hs. injection Hs as <-.
  unfold get_dcs. rewrite Em, !nth_error_map.
  destruct (nth_error (members s) i) as [l|] eqn:El;
    [|apply nth_error_None in El; lia]. cbn [option_map].
  destruct (As l) as (_ & _ & A1 & A2).
  destruct (nth_error (values (Some v)) i) as [x|] eqn:Ex.
  - f_equal. apply A2. eapply written_last_nodup; eauto.
  - f_equal. apply A1. intros j Hj.
    assert (i = j) as <-; [|exact Ex].
    rewrite NoDup_nth_error in Hn. apply Hn; [lia|congruence].
Qed.
Lemma get_set_rfs s v s' : NoDup (members s) ->
  assignable (List.length (members s)) v -> set_rfs s v = (s', None) ->
  forall i, (i < List.length (members s))%nat ->
  nth_error (get_rfs s') i =
    match nth_error (values (Some v)) i with
    | Some x => Some x
    | None => nth_error (get_rfs s) i
    end.
Proof.
  intros Hn Ha Hs i Hi. destruct (set_rfs_spec s v Ha) as (s2 & E & Em & As).
  rewrite E in Hs. injection Hs as <-.
  unfold get_rfs. rewrite Em, !nth_error_map.
  destruct (nth_error (members s) i) as [l|] eqn:El;
    [|apply nth_error_None in El; lia]. cbn [option_map].
  destruct (As l) as (_ & _ & A1 & A2).
  destruct (nth_error (values (Some v)) i) as [x|] eqn:Ex.
  - f_equal. apply A2. eapply written_last_nodup; eauto.
  - f_equal. apply A1. intros j Hj.
    assert (i = j) as <-; [|exact Ex].
    rewrite NoDup_nth_error in Hn. apply Hn; [lia|congruence].
Qed.
Lemma get_set_names s v s' : NoDup (members s) ->
  assignable (List.length (members s)) v -> set_names s v = (s', None) ->
  forall i, (i < List.length (members s))%nat ->
  nth_error (get_names s') i =
    match nth_error (values (Some v)) i with
    | Some x => Some x
    | None => nth_error (get_names s) i
    end.
Proof.
  intros Hn Ha Hs i Hi. destruct (set_names_spec s v Ha) as (s2 & E & Em & As).
  rewrite E in Hs. injection Hs as <-.
  unfold get_names. rewrite Em, !nth_error_map.
  destruct (nth_error (members s) i) as [l|] eqn:El;
    [|apply nth_error_None in El; lia]. cbn [option_map].
  destruct (As l) as (_ & _ & A1 & A2).
  destruct (nth_error (values (Some v)) i) as [x|] eqn:Ex.
  - f_equal. apply A2. eapply written_last_nodup; eauto.
  - f_equal. apply A1. intros j Hj.
    assert (i = j) as <-; [|exact Ex].
    rewrite NoDup_nth_error in Hn. apply Hn; [lia|congruence].
Qed.

Lemma set_get_dcs s : exists s', set_dcs s (Iter (get_dcs s) None) = (s', None) /\
  members s' = members s /\ forall l, store s' l = store s l.
Proof.
  destruct (set_dcs_spec s (Iter (get_dcs s) None)) as (s' & E & Em & As);
    [left; reflexivity|].
  exists s'. repeat split; auto. intros l.
  destruct (As l) as (A1 & A2 & A3 & A4).
  enough (e_dc (store s' l) = e_dc (store s l)) as A0
    by (destruct (store s' l), (store s l); cbn in *; congruence).
  destruct (written_dec (members s) (get_dcs s) l) as [Hn|[v Hv]]; [auto|].
  rewrite (A4 v Hv). destruct Hv as (i & H1 & H2 & _).
  unfold get_dcs in H2. rewrite nth_error_map, H1 in H2. cbn in H2. congruence.
Qed.

(** ** C04 *)
Lemma find_name_spec h n ls :
  match find_name h ls n with
  | Some l => exists i, nth_error ls i = Some l /\ e_name (h l) = n /\
      forall j l', (j < i)%nat -> nth_error ls j = Some l' -> e_name (h l') <> n
  | None => forall l, In l ls -> e_name (h l) <> n
  end.
Proof.
  induction ls as [|l0 ls IH]; cbn [find_name].
  - intros l [].
  - destruct (String.eqb_spec (e_name (h l0)) n) as [E|E].
    + exists 0%nat. repeat split; auto. intros j l' Hj. lia.
    + destruct (find_name h ls n) as [l|].
      * destruct IH as (i & H1 & H2 & H3). exists (S i). repeat split; auto.
        intros [|j] l' Hj Hl'; cbn in Hl'; [congruence|].
        apply (H3 j); [lia|exact Hl'].
      * intros l [<-|Hl]; auto.
Qed.

Lemma py_index_spec {A} (l : list A) (i : Z) :
  let n := Z.of_nat (List.length l) in
  match py_index l i with
  | Ok a => (-n <= i < n)%Z /\
            nth_error l (Z.to_nat (if (i <? 0)%Z then i + n else i)%Z) = Some a
  | Raise e => e = IndexError /\ ~ (-n <= i < n)%Z
  end.
Proof.
  intros n. unfold py_index. fold n.
  set (j := if (i <? 0)%Z then (i + n)%Z else i).
  assert (Hj : (0 <= j < n <-> -n <= i < n)%Z).
  { unfold j. destruct (Z.ltb_spec i 0); lia. }
  destruct (Z.ltb_spec j 0) as [H|H].
  - split; [reflexivity|]. lia.
  - destruct (nth_error l (Z.to_nat j)) as [a|] eqn:E.
    + split; [|reflexivity]. apply Hj.
      assert (Z.to_nat j < List.length l)%nat by (apply nth_error_Some; congruence).
      lia.
    + split; [reflexivity|]. apply nth_error_None in E. lia.
Qed.

(** ** C01, C02 *)
Lemma finally_spec s s0 s3 dcs rfs e :
  members s3 = members s -> members s0 = members s ->
  exists s',
    wv_finally (match dcs with Some _ => Some (Iter (get_dcs s) None) | None => @None (viter R) end)
       (match rfs with Some _ => Some (Iter (get_rfs s0) None) | None => None end) s3 e
    = (s', e) /\ members s' = members s /\
    forall l,
      e_name (store s' l) = e_name (store s3 l) /\
      (@given (viter R) dcs -> In l (members s) -> e_dc (store s' l) = e_dc (store s l)) /\
      (~ @given (viter R) dcs \/ ~ In l (members s) -> e_dc (store s' l) = e_dc (store s3 l)) /\
      (@given (viter R) rfs -> In l (members s) -> e_rf (store s' l) = e_rf (store s0 l)) /\
      (~ @given (viter R) rfs \/ ~ In l (members s) -> e_rf (store s' l) = e_rf (store s3 l)).
Proof.
  intros Hm Hm0. unfold wv_finally.
  assert (R1 : exists s4,
    (match (match dcs with Some _ => Some (Iter (get_dcs s) None) | None => @None (viter R) end) with
     | Some v => set_dcs s3 v | None => (s3, None) end) = (s4, None)
    /\ members s4 = members s /\ forall l,
      e_name (store s4 l) = e_name (store s3 l) /\
      e_rf (store s4 l) = e_rf (store s3 l) /\
      (given dcs -> In l (members s) -> e_dc (store s4 l) = e_dc (store s l)) /\
      (~ given dcs \/ ~ In l (members s) -> e_dc (store s4 l) = e_dc (store s3 l))).
  { destruct dcs as [d|].
    - destruct (set_dcs_spec s3 (Iter (get_dcs s) None)) as (s4 & E & Em & As);
        [left; reflexivity|].
      exists s4. rewrite E. repeat split; try congruence.
      + now destruct (As l) as (_ & H & _).
      + now destruct (As l) as (H & _).
      + intros _ Hl. unfold set_dcs, set_attr in E. injection E as E _. subst s4. cbn.
        rewrite Hm. unfold get_dcs.
        now apply (zip_write_restore w_dc e_dc e_name e_rf).
      + intros [H|H]; [exfalso; apply H; discriminate|].
        unfold set_dcs, set_attr in E. injection E as E _. subst s4. cbn.
        rewrite Hm.
        now apply (zip_write_notin w_dc e_dc e_name e_rf).
    - exists s3. repeat split; auto. intros H; now contradiction H. }
  destruct R1 as (s4 & E4 & Em4 & P4). rewrite E4. cbn [fst snd].
  destruct rfs as [r|].
  - destruct (set_rfs_spec s4 (Iter (get_rfs s0) None)) as (s5 & E & Em & As);
      [left; reflexivity|].
    exists s5. rewrite E. cbn [fst snd].
    split; [reflexivity|]. split; [congruence|]. intros l.
    destruct (P4 l) as (Q1 & Q2 & Q3 & Q4). destruct (As l) as (A1 & A2 & _).
    repeat split.
    + congruence.
    + intros; rewrite A1; auto.
    + intros; rewrite A1; auto.
    + intros _ Hl. unfold set_rfs, set_attr in E. injection E as E _. subst s5. cbn.
      rewrite Em4, <- Hm0. unfold get_rfs.
      rewrite <- Hm0 in Hl. now apply (zip_write_restore w_rf e_rf e_name e_dc).
    + intros [H|H]; [exfalso; apply H; discriminate|].
      rewrite <- Q2.
      unfold set_rfs, set_attr in E. injection E as E _. subst s5. cbn.
      rewrite Em4.
      now apply (zip_write_notin w_rf e_rf e_name e_dc).
  - exists s4. cbn [fst snd]. split; [reflexivity|]. split; [exact Em4|].
    intros l. destruct (P4 l) as (Q1 & Q2 & Q3 & Q4). repeat split; auto.
    intros H; now contradiction H.
Qed.

Lemma with_voltages_restores s dcs rfs body :
  opt_assignable (List.length (members s)) dcs ->
  opt_assignable (List.length (members s)) rfs ->
  exists s_in,
    members s_in = members s /\
    (forall l, e_name (store s_in l) = e_name (store s l) /\
      (not_written (members s) (values dcs) l ->
         e_dc (store s_in l) = e_dc (store s l)) /\
      (forall v, written_last (members s) (values dcs) l v ->
         e_dc (store s_in l) = v) /\
      (not_written (members s) (values rfs) l ->
         e_rf (store s_in l) = e_rf (store s l)) /\
      (forall v, written_last (members s) (values rfs) l v ->
         e_rf (store s_in l) = v)) /\
    forall s_out e, body s_in = (s_out, e) -> members s_out = members s ->
    exists s', with_voltages dcs rfs body s = (s', e) /\
      members s' = members s /\
      forall l,
        e_name (store s' l) = e_name (store s_out l) /\
        (given dcs -> In l (members s) -> e_dc (store s' l) = e_dc (store s l)) /\
        (~ given dcs \/ ~ In l (members s) ->
           e_dc (store s' l) = e_dc (store s_out l)) /\
        (given rfs -> In l (members s) -> e_rf (store s' l) = e_rf (store s l)) /\
        (~ given rfs \/ ~ In l (members s) ->
           e_rf (store s' l) = e_rf (store s_out l)).
Proof.
  intros Hd Hr.
  (* first assignment *)
  assert (R1 : exists s1,
    (match dcs with None => (@None (viter R), (s, None))
       | Some v => (Some (Iter (get_dcs s) None), set_dcs s v) end)
    = (match dcs with Some _ => Some (Iter (get_dcs s) None) | None => None end,
       (s1, None)) /\ members s1 = members s /\
    assigned e_dc e_rf e_name (members s) (values dcs) (store s) (store s1)).
  { destruct dcs as [v|].
    - destruct (set_dcs_spec s v Hd) as (s1 & E & Em & As). exists s1.
      rewrite E. auto.
    - exists s. repeat split; auto.
      intros v Hv. now apply written_last_nil_r in Hv. }
  destruct R1 as (s1 & E1 & Em1 & A1).
  assert (R2 : exists s2,
    (match rfs with None => (@None (viter R), (s1, None))
       | Some v => (Some (Iter (get_rfs s1) None), set_rfs s1 v) end)
    = (match rfs with Some _ => Some (Iter (get_rfs s1) None) | None => None end,
       (s2, None)) /\ members s2 = members s /\
    assigned e_rf e_dc e_name (members s) (values rfs) (store s1) (store s2)).
  { destruct rfs as [v|].
    - rewrite <- Em1 in Hr.
      destruct (set_rfs_spec s1 v Hr) as (s2 & E & Em & As). exists s2.
      rewrite E. rewrite Em1 in As. repeat split; auto; try congruence; apply As.
    - exists s1. repeat split; auto.
      intros v Hv. now apply written_last_nil_r in Hv. }
  destruct R2 as (s2 & E2 & Em2 & A2).
  exists s2. split; [exact Em2|]. split.
  { intros l. destruct (A1 l) as (B1 & B2 & B3 & B4).
    destruct (A2 l) as (C1 & C2 & C3 & C4).
    split; [congruence|]. split; [|split; [|split]].
    - intros Hn. rewrite C1. auto.
    - intros v Hv. rewrite C1. auto.
    - intros Hn. rewrite (C3 Hn). auto.
    - auto. }
  intros s3 e Hb Hm3.
  destruct (finally_spec s s1 s3 dcs rfs e Hm3 Em1) as (s' & EF & EmF & PF).
  exists s'. split; [|split; [exact EmF|]].
  - unfold with_voltages. rewrite E1, E2, Hb. exact EF.
  - intros l. destruct (PF l) as (Q1 & Q2 & Q3 & Q4 & Q5).
    repeat split; auto. intros Hg Hl. rewrite (Q4 Hg Hl).
    now destruct (A1 l) as (B1 & _).
Qed.

Lemma nested_restores body levels : forall s,
  (forall t, members (fst (body t)) = members t) ->
  (forall lv, In lv levels ->
     opt_assignable (List.length (members s)) (fst lv) /\
     opt_assignable (List.length (members s)) (snd lv)) ->
  let s' := fst (nested levels body s) in
  members s' = members s /\
  forall l, In l (members s) ->
    ((exists lv, In lv levels /\ given (fst lv)) ->
       e_dc (store s' l) = e_dc (store s l)) /\
    ((exists lv, In lv levels /\ given (snd lv)) ->
       e_rf (store s' l) = e_rf (store s l)).
Proof.
  induction levels as [|[d r] levels IH]; intros s Hb Hl s'.
  - split; [apply Hb|]. intros l _. split; intros (lv & [] & _).
  - unfold s'. cbn [nested fold_right fst snd].
    change (fold_right _ body levels) with (nested levels body).
    destruct (Hl (d, r) (or_introl eq_refl)) as [Hd Hr]. cbn in Hd, Hr.
    destruct (with_voltages_restores s d r (nested levels body) Hd Hr)
      as (s_in & Emi & Hin & Hout).
    destruct (nested levels body s_in) as [s_out e] eqn:E.
    destruct (IH s_in Hb) as [IHm IHl].
    { intros lv Hlv. rewrite Emi. apply Hl. now right. }
    rewrite E in IHm, IHl. cbn [fst] in IHm, IHl.
    destruct (Hout s_out e eq_refl) as (s2 & E2 & Em2 & P2); [congruence|].
    rewrite E2. cbn [fst]. split; [exact Em2|].
    intros l Hl0. destruct (P2 l) as (Q1 & Q2 & Q3 & Q4 & Q5).
    destruct (Hin l) as (I1 & I2 & I3 & I4 & I5).
    assert (Hl1 : In l (members s_in)) by congruence.
    destruct (IHl l Hl1) as [J1 J2].
    split.
    + intros (lv & [<-|Hlv] & Hg).
      * auto.
      * destruct d as [d|]; [apply Q2; [discriminate|auto]|].
        rewrite Q3 by (left; intros H; now apply H).
        rewrite J1 by eauto. apply I2. apply not_written_nil_r.
    + intros (lv & [<-|Hlv] & Hg).
      * auto.
      * destruct r as [r|]; [apply Q4; [discriminate|auto]|].
        rewrite Q5 by (left; intros H; now apply H).
        rewrite J2 by eauto. apply I4. apply not_written_nil_r.
Qed.

(** C02: what happens when entering fails *)
Lemma set_dcs_fail_members s v : members (fst (set_dcs s v)) = members s.
Proof. now destruct v. Qed.

Lemma zip_write_only {V A} (w : V -> eattrs -> eattrs) (g : eattrs -> A) :
  (forall v e, g (w v e) = g e) ->
  forall ls vs f h l, g (fst (zip_write w ls vs f h) l) = g (h l).
Proof.
  intros Hw. induction ls as [|l0 ls IH]; intros vs f h l; cbn [zip_write]; [reflexivity|].
  destruct vs as [|v0 vs]; [reflexivity|].
  rewrite IH. unfold upd. destruct (Nat.eqb_spec l l0); subst; auto.
Qed.

Lemma failed_setup_untouched s dcs rfs body :
  (* the dcs cannot be assigned and no rfs are given *)
  ((exists v e, dcs = Some v /\ snd (set_dcs s v) = Some e) /\ rfs = None) \/
  (* the dcs can be assigned (or are not given), the rfs cannot *)
  (opt_assignable (List.length (members s)) dcs /\
   exists v e, rfs = Some v /\ snd (set_rfs s v) = Some e) ->
  exists s' e, with_voltages dcs rfs body s = (s', Some e) /\
    members s' = members s /\ forall l, store s' l = store s l.
Proof.
  intros [[(v & e & -> & Hf) ->] | [Hd (v & e & -> & Hf)]].
  - destruct (set_dcs s v) as [s1 e1] eqn:E. cbn [snd] in Hf. subst e1.
    assert (Em : members s1 = members s)
      by (change s1 with (fst (s1, Some e)); rewrite <- E; apply set_dcs_fail_members).
    destruct (finally_spec s s s1 (Some v) None (Some e) Em eq_refl)
      as (s' & EF & EmF & PF).
    exists s', e. split; [|split; [exact EmF|]].
    + unfold with_voltages. rewrite E. exact EF.
    + intros l. destruct (PF l) as (Q1 & Q2 & Q3 & Q4 & Q5).
      assert (Hn : e_name (store s1 l) = e_name (store s l) /\
                   e_rf (store s1 l) = e_rf (store s l)).
      { unfold set_dcs, set_attr in E. destruct v as [|vs f].
        - injection E as <- _. auto.
        - injection E as E _. subst s1. cbn. split.
          + now apply (zip_write_only w_dc e_name).
          + now apply (zip_write_only w_dc e_rf). }
      destruct Hn as [Hn1 Hn2].
      assert (Hdc : e_dc (store s' l) = e_dc (store s l)).
      { destruct (in_dec Nat.eq_dec l (members s)) as [Hi|Hi].
        - apply Q2; [discriminate|auto].
        - rewrite Q3 by auto. unfold set_dcs, set_attr in E. destruct v as [|vs f].
          + injection E as <- _. auto.
          + injection E as E _. subst s1. cbn.
            now apply (zip_write_notin w_dc e_dc e_name e_rf). }
      assert (Hrf : e_rf (store s' l) = e_rf (store s l)).
      { rewrite Q5 by (left; intros H; now apply H). auto. }
      destruct (store s' l), (store s l); cbn in *; congruence.
  - (* dcs fine *)
    assert (R1 : exists s1,
      (match dcs with None => (@None (viter R), (s, None))
         | Some v => (Some (Iter (get_dcs s) None), set_dcs s v) end)
      = (match dcs with Some _ => Some (Iter (get_dcs s) None) | None => None end,
         (s1, None)) /\ members s1 = members s /\
      assigned e_dc e_rf e_name (members s) (values dcs) (store s) (store s1)).
    { destruct dcs as [v1|].
      - destruct (set_dcs_spec s v1 Hd) as (s1 & E & Em & As). exists s1.
        rewrite E. auto.
      - exists s. repeat split; auto.
        intros v1 Hv. now apply written_last_nil_r in Hv. }
    destruct R1 as (s1 & E1 & Em1 & A1).
    assert (Hf1 : snd (set_rfs s1 v) = Some e).
    { unfold set_rfs, set_attr in *. destruct v as [|vs f]; [exact Hf|].
      cbn [snd] in *. rewrite Em1.
      revert Hf. generalize (store s1) as h1. generalize (store s) as h0.
      generalize (members s) as ls. clear.
      intros ls. revert vs. induction ls as [|l0 ls IH]; intros vs h0 h1;
        cbn [zip_write]; [auto|].
      destruct vs as [|v0 vs]; [auto|]. apply IH. }
    destruct (set_rfs s1 v) as [s2 e2] eqn:E2. cbn [snd] in Hf1. subst e2.
    assert (Em2 : members s2 = members s).
    { unfold set_rfs, set_attr in E2. destruct v; injection E2 as <- _; auto. }
    destruct (finally_spec s s1 s2 dcs (Some v) (Some e) Em2 Em1)
      as (s' & EF & EmF & PF).
    exists s', e. split; [|split; [exact EmF|]].
    + unfold with_voltages. rewrite E1, E2. exact EF.
    + intros l. destruct (PF l) as (Q1 & Q2 & Q3 & Q4 & Q5).
      destruct (A1 l) as (B1 & B2 & B3 & B4).
      assert (Hn : e_name (store s2 l) = e_name (store s1 l) /\
                   e_dc (store s2 l) = e_dc (store s1 l)).
      { unfold set_rfs, set_attr in E2. destruct v as [|vs f].
        - injection E2 as <- _. auto.
        - injection E2 as E2 _. subst s2. cbn. split.
          + now apply (zip_write_only w_rf e_name).
          + now apply (zip_write_only w_rf e_dc). }
      destruct Hn as [Hn1 Hn2].
      assert (Hdc : e_dc (store s' l) = e_dc (store s l)).
      { destruct (in_dec Nat.eq_dec l (members s)) as [Hi|Hi].
        - destruct dcs as [d|].
          + apply Q2; [discriminate|auto].
          + rewrite Q3 by (left; intros H; now apply H). rewrite Hn2.
            apply B3. apply not_written_nil_r.
        - rewrite Q3 by auto. rewrite Hn2. apply B3.
          intros j Hj. exfalso. apply Hi. eapply nth_error_In; eauto. }
      assert (Hrf : e_rf (store s' l) = e_rf (store s l)).
      { destruct (in_dec Nat.eq_dec l (members s)) as [Hi|Hi].
        - rewrite Q4; [auto|discriminate|auto].
        - rewrite Q5 by auto.
          transitivity (e_rf (store s1 l)); [|auto].
          unfold set_rfs, set_attr in E2. destruct v as [|vs f].
          + injection E2 as <- _. auto.
          + injection E2 as E2 _. subst s2. cbn. rewrite Em1.
            now apply (zip_write_notin w_rf e_rf e_name e_dc). }
      destruct (store s' l), (store s l); cbn in *; congruence.
Qed.

(** a dcs argument that is not iterable together with an rfs argument
    leaves the new rf voltages behind, for every system and body *)
Lemma failed_setup_leaks s rs body :
  exists s', with_voltages (Some NotIterable) (Some (Iter rs None)) body s
               = (s', Some TypeError) /\
    assigned e_rf e_dc e_name (members s) rs (store s) (store s').
Proof.
  unfold with_voltages.
  change (set_dcs s (@NotIterable R)) with (s, Some TypeError).
  cbv beta iota. unfold wv_finally.
  destruct (set_dcs_spec s (Iter (get_dcs s) None)) as (s1 & E1 & Em1 & A1);
    [left; reflexivity|].
  rewrite E1. cbn [fst snd].
  destruct (set_get_dcs s) as (s1' & E1' & Em1' & Hs1').
  rewrite E1 in E1'. injection E1' as <-.
  destruct (set_rfs_spec s1 (Iter rs None)) as (s2 & E2 & Em2 & A2);
    [left; reflexivity|].
  rewrite E2. cbn [fst snd]. exists s2. split; [reflexivity|].
  intros l. destruct (A2 l) as (B1 & B2 & B3 & B4). rewrite Em1 in B3, B4.
  rewrite Hs1' in *. auto.
Qed.

(** ** refused assignments, writing back, overwriting *)
Section Refuse.
Context {V A B : Type} (w : V -> eattrs -> eattrs) (get : eattrs -> V)
  (s1 : eattrs -> A) (s2 : eattrs -> B).
Hypothesis Hget : forall v e, get (w v e) = v.
Hypothesis Hs1 : forall v e, s1 (w v e) = s1 e.
Hypothesis Hs2 : forall v e, s2 (w v e) = s2 e.
Hypothesis ext : forall e e', get e = get e' -> s1 e = s1 e' -> s2 e = s2 e' -> e = e'.

Lemma set_refused s v : ~ assignable (List.length (members s)) v ->
  exists s', set_attr w s v = (s', Some (refusal v)) /\ members s' = members s /\
    assigned get s1 s2 (members s) (values (Some v)) (store s) (store s').
Proof.
  destruct v as [|vs f]; cbn [assignable refusal values set_attr]; intros H.
  - exists s. split; [reflexivity|]. split; [reflexivity|]. intros l. repeat split. intros v Hv. now apply written_last_nil_r in Hv.
  - destruct f as [e|]; [|tauto]. eexists. split; [|split].
    + rewrite (zip_write_fails w); [reflexivity|]. lia.
    + reflexivity.
    + cbn [store]. apply (zip_write_assigned w get s1 s2 Hget Hs1 Hs2).
Qed.
Lemma set_same s : exists s', set_attr w s (Iter (map (fun l => get (store s l)) (members s)) None) = (s', None) /\
  members s' = members s /\ forall l, store s' l = store s l.
Proof.
  eexists. split; [|split].
  - cbn [set_attr]. rewrite (zip_write_ok w) by auto. reflexivity.
  - reflexivity.
  - cbn [store]. intros l. destruct (zip_write_assigned w get s1 s2 Hget Hs1 Hs2 (members s) (map (fun l => get (store s l)) (members s)) None (store s) l) as (E1 & E2 & _).
    apply ext; [|exact E1|exact E2]. destruct (in_dec Nat.eq_dec l (members s)) as [Hl|Hl].
    + now apply (zip_write_restore w get s1 s2 Hget Hs1 Hs2).
    + now apply (zip_write_notin w get s1 s2 Hget Hs1 Hs2).
Qed.
(** a full second assignment hides the first *)
Lemma set_twice s v vs f : (List.length (members s) <= List.length vs)%nat ->
  snd (set_attr w (fst (set_attr w s v)) (Iter vs f)) = None /\
  forall l, store (fst (set_attr w (fst (set_attr w s v)) (Iter vs f))) l = store (fst (set_attr w s (Iter vs f))) l.
Proof.
  intros L. assert (Em : members (fst (set_attr w s v)) = members s) by now destruct v. split.
  - cbn [set_attr snd]. rewrite Em. apply (zip_write_ok w). auto.
  - intros l. cbn [set_attr fst store]. rewrite Em.
    set (h := store (fst (set_attr w s v))).
    assert (Hh : assigned get s1 s2 (members s) (values (Some v)) (store s) h).
    { destruct v as [|us g]; [intros k; repeat split; intros u Hu; now apply written_last_nil_r in Hu|apply (zip_write_assigned w get s1 s2 Hget Hs1 Hs2)]. }
    destruct (Hh l) as (F1 & F2 & F3 & _).
    destruct (zip_write_assigned w get s1 s2 Hget Hs1 Hs2 (members s) vs f h l) as (A1 & A2 & A3 & A4).
    destruct (zip_write_assigned w get s1 s2 Hget Hs1 Hs2 (members s) vs f (store s) l) as (B1 & B2 & B3 & B4).
    apply ext; [|now rewrite A1, B1, F1|now rewrite A2, B2, F2].
    destruct (written_dec (members s) vs l) as [Hn|[u Hu]]; [|now rewrite (A4 u Hu), (B4 u Hu)].
    rewrite (A3 Hn), (B3 Hn). apply F3. intros j Hj. exfalso. specialize (Hn j Hj). apply nth_error_None in Hn.
    assert (j < List.length (members s))%nat by (apply nth_error_Some; congruence). lia.
Qed.
End Refuse.
Lemma eattrs_ext e e' : e_name e = e_name e' -> e_dc e = e_dc e' -> e_rf e = e_rf e' -> e = e'.
Proof. destruct e, e'. cbn. now intros -> -> ->. Qed.
Lemma refused_all s (v : viter R) (n : viter string) :
  (~ assignable (List.length (members s)) v ->
   (exists s', set_dcs s v = (s', Some (refusal v)) /\ members s' = members s /\
      assigned e_dc e_rf e_name (members s) (values (Some v)) (store s) (store s')) /\
   (exists s', set_rfs s v = (s', Some (refusal v)) /\ members s' = members s /\
      assigned e_rf e_dc e_name (members s) (values (Some v)) (store s) (store s'))) /\
  (~ assignable (List.length (members s)) n ->
   exists s', set_names s n = (s', Some (refusal n)) /\ members s' = members s /\
      assigned e_name e_dc e_rf (members s) (values (Some n)) (store s) (store s')).
Proof.
  split; [intros H; split|intros H].
  - now apply (set_refused w_dc e_dc e_rf e_name).
  - now apply (set_refused w_rf e_rf e_dc e_name).
  - now apply (set_refused w_name e_name e_dc e_rf).
Qed.
Lemma rewrite_all s :
  (exists s', set_rfs s (Iter (get_rfs s) None) = (s', None) /\ members s' = members s /\ forall l, store s' l = store s l) /\
  (exists s', set_names s (Iter (get_names s) None) = (s', None) /\ members s' = members s /\ forall l, store s' l = store s l).
Proof.
  split.
  - apply (set_same w_rf e_rf e_dc e_name); try reflexivity. intros; now apply eattrs_ext.
  - apply (set_same w_name e_name e_dc e_rf); try reflexivity. intros; now apply eattrs_ext.
Qed.
Lemma second_wins s (v : viter R) vs f (n : viter string) ns : (List.length (members s) <= List.length vs)%nat -> (List.length (members s) <= List.length ns)%nat ->
  (forall l, store (fst (set_dcs (fst (set_dcs s v)) (Iter vs f))) l = store (fst (set_dcs s (Iter vs f))) l) /\
  (forall l, store (fst (set_rfs (fst (set_rfs s v)) (Iter vs f))) l = store (fst (set_rfs s (Iter vs f))) l) /\
  (forall l, store (fst (set_names (fst (set_names s n)) (Iter ns f))) l = store (fst (set_names s (Iter ns f))) l).
Proof.
  intros L M. split; [|split].
  - apply (set_twice w_dc e_dc e_rf e_name); try reflexivity; [intros; now apply eattrs_ext|exact L].
  - apply (set_twice w_rf e_rf e_dc e_name); try reflexivity; [intros; now apply eattrs_ext|exact L].
  - apply (set_twice w_name e_name e_dc e_rf); try reflexivity; [intros; now apply eattrs_ext|exact M].
Qed.
