From Verif Require Import Base ModelExpr ModelField ModelThreads SpecThreads.
Open Scope R_scope.
Notation length := List.length.

Lemma cell_eqb_eq a b : cell_eqb a b = true <-> a = b.
Proof.
  destruct a as [[o j] e], b as [[o' j'] e']. unfold cell_eqb. rewrite !Bool.andb_true_iff, !Nat.eqb_eq.
  split; [intros [[-> ->] ->]; reflexivity|intros [= -> -> ->]; auto].
Qed.
Lemma put_same m c v : put m c v c = v.
Proof. unfold put. now rewrite (proj2 (cell_eqb_eq c c) eq_refl). Qed.
Lemma put_other m c v c' : c' <> c -> put m c v c' = m c'.
Proof. intros H. unfold put. destruct (cell_eqb c' c) eqn:E; [|reflexivity]. apply cell_eqb_eq in E. contradiction. Qed.

(** ** a thread by itself *)
Lemma uses_cons i is c : uses (i :: is) c <-> used i = c \/ uses is c.
Proof.
  unfold uses. split.
  - intros (j & [<-|H] & E); [now left|right; eauto].
  - intros [E|(j & H & E)]; [exists i; cbn; auto|exists j; cbn; auto].
Qed.
Lemma writes_uses is c : writes is c -> uses is c.
Proof. intros (f & H). exists (Store c f). auto. Qed.
Lemma uses_incl is is' c : incl is is' -> uses is c -> uses is' c.
Proof. intros H (i & Hi & E). exists i. auto. Qed.
Lemma alone_agree (P : cell -> Prop) is : forall l m m', (forall c, uses is c -> P c) -> (forall c, P c -> m c = m' c) ->
  fst (alone is l m) = fst (alone is l m') /\ forall c, P c -> snd (alone is l m) c = snd (alone is l m') c.
Proof.
  induction is as [|i is IH]; intros l m m' HP A; [cbn; auto|]. cbn [alone].
  assert (U : P (used i)) by (apply HP, uses_cons; now left).
  assert (HP' : forall c, uses is c -> P c) by (intros c Hc; apply HP, uses_cons; now right).
  destruct i as [c|c f]; cbn [exec used] in *.
  - rewrite (A c U). now apply IH.
  - apply IH; [exact HP'|]. intros c' Hc'. unfold put. destruct (cell_eqb c' c); auto.
Qed.
Lemma alone_other is : forall l m c, ~ writes is c -> snd (alone is l m) c = m c.
Proof.
  induction is as [|i is IH]; intros l m c H; [reflexivity|]. cbn [alone].
  assert (H' : ~ writes is c) by (intros (f & Hf); apply H; exists f; now right).
  destruct i as [c'|c' f]; cbn [exec]; rewrite IH by exact H'; [reflexivity|].
  apply put_other. intros ->. apply H. exists f. now left.
Qed.
Lemma alone_app is is' l m : alone (is ++ is') l m = alone is' (fst (alone is l m)) (snd (alone is l m)).
Proof. revert l m. induction is as [|i is IH]; intros l m; [reflexivity|]. cbn [app alone]. destruct (exec i l m). apply IH. Qed.

(** ** threads together *)
Lemma step_spec t ts m ts' m' : step t ts m = (ts', m') ->
  (ts' = ts /\ m' = m) \/
  exists th i is, nth_error ts t = Some th /\ code th = i :: is /\ m' = snd (exec i (vars th) m) /\
    nth_error ts' t = Some (Thread is (fst (exec i (vars th) m))) /\ forall t', t' <> t -> nth_error ts' t' = nth_error ts t'.
Proof.
  revert t ts' m'. induction ts as [|th r IH]; intros t ts' m'; cbn [step].
  - intros [= <- <-]. now left.
  - destruct t as [|t].
    + destruct (code th) as [|i is] eqn:E; [intros [= <- <-]; now left|].
      destruct (exec i (vars th) m) as [l m1] eqn:X. intros [= <- <-]. right. exists th, i, is. rewrite X. cbn.
      split; [reflexivity|]. split; [exact E|]. split; [reflexivity|]. split; [reflexivity|].
      intros [|t'] H; [congruence|reflexivity].
    + destruct (step t r m) as [r' m1] eqn:X. intros [= <- <-]. destruct (IH _ _ _ X) as [[-> ->]|(th' & i & is & A & B & C & D & F)]; [now left|].
      right. exists th', i, is. cbn. repeat split; auto. intros [|t'] H; [reflexivity|]. cbn. apply F. congruence.
Qed.

Section Together.
Variables (ts0 : list thread) (m0 : memory).
Hypothesis RF : race_free ts0.
Definition inv (ts : list thread) (m : memory) : Prop :=
  length ts = length ts0 /\
  (forall t a, nth_error ts0 t = Some a -> exists b, nth_error ts t = Some b /\ incl (code b) (code a) /\
     fst (alone (code b) (vars b) m) = fst (alone (code a) (vars a) m0) /\
     forall c, uses (code a) c -> snd (alone (code b) (vars b) m) c = snd (alone (code a) (vars a) m0) c) /\
  (forall c, (forall a, In a ts0 -> ~ writes (code a) c) -> m c = m0 c).
Lemma inv_start : inv ts0 m0.
Proof. split; [reflexivity|]. split; [|reflexivity]. intros t a H. exists a. repeat split; auto. apply incl_refl. Qed.
Lemma nth_length {A} (l l' : list A) : (forall t, nth_error l t = None <-> nth_error l' t = None) -> length l = length l'.
Proof.
  intros H.
  assert (A1 : (length l <= length l')%nat) by (apply nth_error_None, H, nth_error_None; lia).
  assert (A2 : (length l' <= length l)%nat) by (apply nth_error_None, H, nth_error_None; lia). lia.
Qed.
Lemma inv_step t ts m : inv ts m -> inv (fst (step t ts m)) (snd (step t ts m)).
Proof.
  intros (HL & HI & HU). destruct (step t ts m) as [ts' m'] eqn:X. cbn [fst snd].
  destruct (step_spec _ _ _ _ _ X) as [[-> ->]|(th & i & is & A & B & C & D & F)]; [now split|].
  assert (Ht : (t < length ts)%nat) by (apply nth_error_Some; congruence).
  destruct (nth_error ts0 t) as [a|] eqn:Ea; [|apply nth_error_None in Ea; lia].
  destruct (HI t a Ea) as (b & Eb & Ib & Vb & Mb). rewrite A in Eb. injection Eb as <-.
  assert (Hm : forall c, ~ writes (code a) c -> m' c = m c).
  { intros c Hc. subst m'. destruct i as [c'|c' f]; cbn; [reflexivity|]. apply put_other. intros ->. apply Hc. exists f. apply Ib. rewrite B. now left. }
  split; [|split].
  - rewrite <- HL. apply nth_length. intros t'. destruct (Nat.eq_dec t' t) as [->|N]; [|now rewrite F]. rewrite A, D. split; discriminate.
  - intros t' a' Ea'. destruct (Nat.eq_dec t' t) as [->|N].
    + rewrite Ea in Ea'. injection Ea' as <-. exists (Thread is (fst (exec i (vars th) m))). split; [exact D|]. cbn [code vars].
      split; [intros j Hj; apply Ib; rewrite B; now right|].
      rewrite B in Vb, Mb. cbn [alone] in Vb, Mb. subst m'. destruct (exec i (vars th) m) as [l1 m1]. cbn [fst snd]. auto.
    + destruct (HI t' a' Ea') as (b & Eb & Ib' & Vb' & Mb'). exists b. rewrite F by exact N. split; [exact Eb|]. split; [exact Ib'|].
      destruct (alone_agree (uses (code a')) (code b) (vars b) m' m) as [V M].
      * intros c Hc. now apply (uses_incl (code b)).
      * intros c Hc. apply Hm. intros Hw. exact (RF t t' a a' c ltac:(congruence) Ea Ea' Hw Hc).
      * split; [congruence|]. intros c Hc. rewrite M by exact Hc. now apply Mb'.
  - intros c Hc. rewrite Hm; [now apply HU|]. apply Hc. now apply nth_error_In with t.
Qed.
Lemma inv_run schedule : forall ts m, inv ts m ->
  let st := fold_left (fun st t => step t (fst st) (snd st)) schedule (ts, m) in inv (fst st) (snd st).
Proof.
  induction schedule as [|t r IH]; intros ts m H; [exact H|]. cbn [fold_left fst snd].
  destruct (step t ts m) as [ts' m'] eqn:X. apply IH. pose proof (inv_step t ts m H) as I. rewrite X in I. exact I.
Qed.
Lemma no_races schedule ts m : run schedule ts0 m0 = (ts, m) -> finished ts ->
  length ts = length ts0 /\
  (forall t a, nth_error ts0 t = Some a -> exists b, nth_error ts t = Some b /\ vars b = fst (alone (code a) (vars a) m0) /\
     forall c, uses (code a) c -> m c = snd (alone (code a) (vars a) m0) c) /\
  (forall c, (forall a, In a ts0 -> ~ writes (code a) c) -> m c = m0 c).
Proof.
  intros E HF. pose proof (inv_run schedule ts0 m0 inv_start) as I. cbv zeta in I. unfold run in E. rewrite E in I. destruct I as (HL & HI & HU).
  cbn [fst snd] in *. split; [exact HL|]. split; [|exact HU]. intros t a Ea. destruct (HI t a Ea) as (b & Eb & _ & V & M).
  assert (C : code b = []) by (apply HF; now apply nth_error_In with t). rewrite C in V, M. cbn in V, M. exists b. auto.
Qed.
End Together.

(** ** the compiled loops *)
Lemma add_code_at o j inc : forall e l m c, snd (alone (add_code o j e inc) l m) c =
  if cell_eqb c (o, j, snd c) && (e <=? snd c)%nat && (snd c <? e + length inc)%nat then m c + nth (snd c - e) inc 0 else m c.
Proof.
  induction inc as [|d inc IH]; intros e l m [[o' j'] k]; cbn [add_code].
  - cbn [alone snd length]. rewrite Nat.add_0_r. destruct (Nat.leb_spec e k), (Nat.ltb_spec k e); try lia; now rewrite ?Bool.andb_false_r.
  - cbn [alone exec hd]. rewrite IH. cbn [snd length]. unfold cell_eqb. rewrite Nat.eqb_refl, Bool.andb_true_r.
    destruct ((o' =? o) && (j' =? j))%nat%bool eqn:Q.
    + apply Bool.andb_true_iff in Q. destruct Q as [Q1 Q2]. apply Nat.eqb_eq in Q1, Q2. subst o' j'. cbn [andb].
      destruct (Nat.leb_spec (e + 1) k) as [H1|H1]; cbn [andb].
      * rewrite put_other by (intros [= ]; lia). destruct (Nat.leb_spec e k); [|lia]. cbn [andb].
        destruct (Nat.ltb_spec k (e + 1 + length inc)), (Nat.ltb_spec k (e + S (length inc))); try lia; [|reflexivity].
        replace (k - e)%nat with (S (k - (e + 1))) by lia. reflexivity.
      * destruct (Nat.leb_spec e k) as [H2|H2]; cbn [andb].
        -- assert (k = e) as -> by lia. rewrite put_same. destruct (Nat.ltb_spec e (e + S (length inc))); [|lia].
           rewrite Nat.sub_diag. reflexivity.
        -- apply put_other. intros [= ]. lia.
    + cbn [andb]. apply put_other. intros [= -> -> _]. now rewrite !Nat.eqb_refl in Q.
Qed.
Lemma nth_add_into inc : forall r e, nth_error (add_into r inc) e =
  match nth_error r e with Some v => Some (if (e <? length inc)%nat then v + nth e inc 0 else v) | None => None end.
Proof.
  induction inc as [|d inc IH]; intros r e.
  - destruct r as [|a r]; cbn; [destruct e; reflexivity|]. destruct e; cbn; [reflexivity|]. now destruct (nth_error r e).
  - destruct r as [|a r]; cbn [add_into]; [destruct e; reflexivity|]. destruct e as [|e]; [reflexivity|]. cbn [nth_error]. rewrite IH. reflexivity.
Qed.
Lemma nth_upd_row j f : forall out i, nth_error (upd_row j f out) i =
  match nth_error out i with Some r => Some (if (i =? j)%nat then f r else r) | None => None end.
Proof.
  induction j as [|j IH]; intros out i; destruct out as [|r out]; cbn [upd_row]; try (destruct i; reflexivity).
  - destruct i; cbn; [reflexivity|]. now destruct (nth_error out i).
  - destruct i as [|i]; cbn [nth_error]; [reflexivity|]. rewrite IH. reflexivity.
Qed.
Lemma nth_error_seq n i : forall s, nth_error (seq s n) i = if (i <? n)%nat then Some (s + i)%nat else None.
Proof.
  revert i. induction n as [|n IH]; intros i s; [destruct i; reflexivity|]. cbn [seq]. destruct i as [|i]; cbn [nth_error].
  - change (0 <? S n)%nat with true. cbv iota. f_equal. lia.
  - rewrite IH. change (S i <? S n)%nat with (i <? n)%nat. destruct (i <? n)%nat; [f_equal; lia|reflexivity].
Qed.
Lemma list_ext {A} (l l' : list A) : (forall i, nth_error l i = nth_error l' i) -> l = l'.
Proof.
  revert l'. induction l as [|a l IH]; intros [|b l'] H; [reflexivity|specialize (H 0%nat); discriminate|specialize (H 0%nat); discriminate|].
  f_equal; [specialize (H 0%nat); cbn in H; congruence|]. apply IH. intros i. exact (H (S i)).
Qed.
Lemma contents_add m o j inc l n w :
  contents (snd (alone (add_code o j 0 inc) l m)) o n w = upd_row j (fun r => add_into r inc) (contents m o n w).
Proof.
  apply list_ext. intros i. rewrite nth_upd_row. unfold contents. rewrite !nth_error_map, !nth_error_seq.
  destruct (i <? n)%nat eqn:Hi; cbn [option_map]; [|reflexivity]. f_equal.
  destruct (Nat.eqb_spec i j) as [->|N].
  - apply list_ext. intros e. rewrite nth_add_into, !nth_error_map, !nth_error_seq. destruct (e <? w)%nat; cbn [option_map]; [|reflexivity].
    f_equal. rewrite add_code_at. cbn [snd]. unfold cell_eqb. rewrite !Nat.eqb_refl. cbn. rewrite Nat.sub_0_r. reflexivity.
  - apply map_ext. intros e. rewrite add_code_at. unfold cell_eqb. rewrite Nat.eqb_refl. cbn [plus].
    destruct (Nat.eqb_spec i j); [contradiction|]. reflexivity.
Qed.
Definition apply_incs (is : incs) (out : list row) : list row := fold_left (fun out (ji : nat * row) => upd_row (fst ji) (fun r => add_into r (snd ji)) out) is out.
Lemma contents_loop o is n w : forall l m, contents (snd (alone (loop_code o is) l m)) o n w = apply_incs is (contents m o n w).
Proof.
  induction is as [|[j inc] is IH]; intros l m; [reflexivity|]. cbn [loop_code flat_map fst snd]. rewrite alone_app, IH, contents_add. reflexivity.
Qed.
Lemma add_code_uses o j inc : forall e c, uses (add_code o j e inc) c -> fst (fst c) = o.
Proof.
  induction inc as [|d inc IH]; intros e c; cbn [add_code]; [intros (i & [] & _)|]. rewrite !uses_cons. cbn. intros [<-|[<-|H]]; [reflexivity|reflexivity|eauto].
Qed.
Lemma loop_code_uses o is c : uses (loop_code o is) c -> fst (fst c) = o.
Proof.
  intros (i & Hi & E). unfold loop_code in Hi. apply in_flat_map in Hi. destruct Hi as (ji & _ & Hi). apply (add_code_uses o (fst ji) (snd ji) 0). exists i. auto.
Qed.
(** ** the loops are sequences of additions *)
Lemma fold_flat_map {A B C} (f : A -> list B) (g : C -> B -> C) l : forall c, fold_left g (flat_map f l) c = fold_left (fun c a => fold_left g (f a) c) l c.
Proof. induction l as [|a l IH]; intros c; [reflexivity|]. cbn. rewrite fold_left_app. apply IH. Qed.
Lemma fold_map {A B C} (f : A -> B) (g : C -> B -> C) l : forall c, fold_left g (map f l) c = fold_left (fun c a => g c (f a)) l c.
Proof. induction l as [|a l IH]; intros c; [reflexivity|]. cbn. apply IH. Qed.
Lemma fold_ext {A C} (f g : C -> A -> C) l : (forall c a, f c a = g c a) -> forall c, fold_left f l c = fold_left g l c.
Proof. intros H. induction l as [|a l IH]; intros c; [reflexivity|]. cbn. now rewrite H. Qed.
Lemma point_incs_loop xs pixels p d n h out : apply_incs (point_incs xs pixels p d n h) out = point_loop xs pixels p d n h out.
Proof.
  unfold apply_incs, point_incs, point_loop. rewrite fold_flat_map. apply fold_ext. intros o pa. cbv zeta. rewrite fold_flat_map. apply fold_ext. intros o' j.
  rewrite fold_map. apply fold_ext. reflexivity.
Qed.
Lemma vertex_incs_loop x z p d j vs : forall st out, apply_incs (vertex_incs x z p d j vs st) out = snd (vertex_loop x z p d j vs (st, out)).
Proof.
  induction vs as [|v vs IH]; intros [[x1 y1] r1] out; [reflexivity|]. cbn [vertex_incs]. unfold apply_incs. cbn [fold_left fst snd].
  unfold vertex_loop. cbn [fold_left]. fold (vertex_loop x z p d j vs). unfold apply_incs in IH. now rewrite IH.
Qed.
Lemma polygon_incs_loop xs poly p d n h out : apply_incs (polygon_incs xs poly p d n h) out = polygon_loop xs poly p d n h out.
Proof.
  unfold apply_incs, polygon_incs, polygon_loop. rewrite fold_flat_map. apply fold_ext. intros o j. cbv zeta. rewrite fold_flat_map. apply fold_ext. intros o' k.
  apply vertex_incs_loop.
Qed.
Lemma mesh_incs_loop xs pts es ps d n h out : apply_incs (mesh_incs xs pts es ps d n h) out = mesh_loop xs pts es ps d n h out.
Proof.
  unfold apply_incs, mesh_incs, mesh_loop. rewrite fold_flat_map. apply fold_ext. intros o e. rewrite fold_flat_map. apply fold_ext. intros o' j.
  cbv zeta. rewrite fold_map. apply fold_ext. reflexivity.
Qed.
Lemma job_alone o jb l m n w : contents (snd (alone (job_code o jb) l m)) o n w = job_result jb (contents m o n w).
Proof.
  unfold job_code. rewrite contents_loop. destruct jb; cbn; [apply point_incs_loop|apply polygon_incs_loop|apply mesh_incs_loop].
Qed.
Lemma job_uses o jb c : uses (job_code o jb) c -> fst (fst c) = o.
Proof. unfold job_code. apply loop_code_uses. Qed.
Lemma nth_error_map_inv {A B} (f : A -> B) l t b : nth_error (map f l) t = Some b -> exists a, nth_error l t = Some a /\ b = f a.
Proof. rewrite nth_error_map. destruct (nth_error l t) as [a|]; cbn; [intros [= <-]; eauto|discriminate]. Qed.
Lemma jobs_race_free (jobs : list (nat * job)) : NoDup (map fst jobs) -> race_free (map (fun oj => Thread (job_code (fst oj) (snd oj)) []) jobs).
Proof.
  intros ND t t' a b c N Ea Eb Hw Hu. apply nth_error_map_inv in Ea, Eb. destruct Ea as (x & Ex & ->), Eb as (y & Ey & ->). cbn [code] in *.
  apply writes_uses, job_uses in Hw. apply job_uses in Hu. apply N.
  apply (proj1 (NoDup_nth_error (map fst jobs)) ND).
  - apply nth_error_Some. rewrite nth_error_map, Ex. discriminate.
  - rewrite !nth_error_map, Ex, Ey. cbn. congruence.
Qed.
Lemma jobs_result (jobs : list (nat * job)) m0 schedule ts m : NoDup (map fst jobs) ->
  run schedule (map (fun oj => Thread (job_code (fst oj) (snd oj)) []) jobs) m0 = (ts, m) -> finished ts ->
  forall o jb n w, In (o, jb) jobs -> contents m o n w = job_result jb (contents m0 o n w).
Proof.
  intros ND E HF o jb n w Hin. destruct (no_races _ m0 (jobs_race_free jobs ND) schedule ts m E HF) as (_ & HI & HU).
  apply In_nth_error in Hin. destruct Hin as [t Ht].
  destruct (HI t (Thread (job_code o jb) [])) as (b & _ & _ & M); [rewrite nth_error_map, Ht; reflexivity|]. cbn [code vars] in M.
  rewrite <- (job_alone o jb [] m0 n w). unfold contents. apply map_ext. intros j. apply map_ext. intros e.
  set (c := (o, j, e)).
  assert (D : uses (job_code o jb) c \/ ~ uses (job_code o jb) c).
  { clear. unfold uses. induction (job_code o jb) as [|i is IH].
    - right. intros (i & [] & _).
    - destruct (cell_eqb (used i) c) eqn:E.
      + left. exists i. split; [now left|]. now apply cell_eqb_eq.
      + destruct IH as [(i' & H & Hc)|H]; [left; exists i'; split; [now right|exact Hc]|]. right. intros (i' & [<-|H'] & Hc).
        * apply cell_eqb_eq in Hc. congruence.
        * apply H. eauto. }
  destruct D as [D|D]; [now apply M|].
  rewrite alone_other by (intros Hw; apply D; now apply writes_uses).
  apply HU. intros a Ha Hw. apply in_map_iff in Ha. destruct Ha as ((o', jb') & <- & Hin'). cbn [code fst snd] in Hw.
  pose proof (writes_uses _ _ Hw) as Hu. pose proof (job_uses _ _ _ Hu) as Q. cbn in Q. subst o'.
  apply In_nth_error in Hin'. destruct Hin' as [t' Ht'].
  assert (t = t').
  { apply (proj1 (NoDup_nth_error (map fst jobs)) ND).
    - apply nth_error_Some. rewrite nth_error_map, Ht. discriminate.
    - rewrite !nth_error_map, Ht, Ht'. reflexivity. }
  subst t'. rewrite Ht in Ht'. injection Ht' as <-. contradiction.
Qed.

(** ** with_voltages *)
Lemma loads_alone es : forall l m, alone (map (fun e => Load (dc e)) es) l m = (rev (map (fun e => m (dc e)) es) ++ l, m).
Proof. induction es as [|e es IH]; intros l m; [reflexivity|]. cbn [map alone exec]. rewrite IH. cbn [rev]. now rewrite <- app_assoc. Qed.
Lemma alone_vars_suffix is : forall l m, exists l', fst (alone is l m) = l' ++ l.
Proof.
  induction is as [|i is IH]; intros l m; [exists []; reflexivity|]. cbn [alone]. destruct i as [c|c f]; cbn [exec].
  - destruct (IH (m c :: l) m) as [l' ->]. exists (l' ++ [m c]). now rewrite <- app_assoc.
  - apply IH.
Qed.
Lemma restore_alone (old : nat -> R) es : forall s l m, (forall i e, nth_error es i = Some e -> nth (s + i) (rev l) 0 = old e) ->
  forall e, In e es -> snd (alone (map (fun ie => Store (dc (snd ie)) (fun l => nth (fst ie) (rev l) 0)) (combine (seq s (length es)) es)) l m) (dc e) = old e.
Proof.
  induction es as [|a es IH]; intros s l m H e He; [destruct He|]. cbn [length seq combine map alone exec fst snd].
  assert (H' : forall i e, nth_error es i = Some e -> nth (S s + i) (rev l) 0 = old e).
  { intros i e' Hi. replace (S s + i)%nat with (s + S i)%nat by lia. now apply H. }
  destruct (in_dec Nat.eq_dec e es) as [Hin|Hin]; [now apply IH|].
  destruct He as [<-|He]; [|contradiction]. rewrite alone_other.
  - rewrite put_same. specialize (H 0%nat a eq_refl). now rewrite Nat.add_0_r in H.
  - intros (f & Hf). apply in_map_iff in Hf. destruct Hf as ([i e] & Q & Hf). injection Q as Q _. apply in_combine_r in Hf. cbn in Q. subst e. contradiction.
Qed.
Lemma block_alone ms vs body m e : In e ms -> snd (alone (with_voltages_code ms vs body) [] m) (dc e) = m (dc e).
Proof.
  intros He. unfold with_voltages_code. rewrite alone_app, loads_alone. cbn [fst snd]. rewrite app_nil_r.
  rewrite app_assoc, alone_app. set (l0 := rev (map (fun e => m (dc e)) ms)).
  destruct (alone_vars_suffix (set_code ms vs ++ body) l0 m) as [l' E].
  destruct (alone (set_code ms vs ++ body) l0 m) as [l1 m1]. cbn [fst snd] in *. subst l1.
  apply (restore_alone (fun e => m (dc e)) ms 0); [|exact He]. intros i x Hx. cbn [plus].
  rewrite rev_app_distr. unfold l0. rewrite rev_involutive, app_nth1.
  - apply nth_error_nth. rewrite nth_error_map, Hx. reflexivity.
  - rewrite map_length. apply nth_error_Some. congruence.
Qed.
Lemma blocks_restored bs m0 schedule ts m : race_free (map block_thread bs) ->
  run schedule (map block_thread bs) m0 = (ts, m) -> finished ts ->
  forall b e, In b bs -> In e (b_members b) -> m (dc e) = m0 (dc e).
Proof.
  intros RF E HF b e Hb He. destruct (no_races _ m0 RF schedule ts m E HF) as (_ & HI & _).
  apply In_nth_error in Hb. destruct Hb as [t Ht].
  destruct (HI t (block_thread b)) as (b' & _ & _ & M); [rewrite nth_error_map, Ht; reflexivity|]. unfold block_thread in M. cbn [code vars] in M.
  rewrite M; [now apply block_alone|]. exists (Load (dc e)). split; [|reflexivity]. unfold with_voltages_code. apply in_or_app. left. apply in_map_iff. eauto.
Qed.

Lemma set_alone es : forall vs l m, NoDup es ->
  fst (alone (set_code es vs) l m) = l /\
  (forall i e v, nth_error es i = Some e -> nth_error vs i = Some v -> snd (alone (set_code es vs) l m) (dc e) = v) /\
  (forall c, (forall e, In e (firstn (length vs) es) -> c <> dc e) -> snd (alone (set_code es vs) l m) c = m c).
Proof.
  induction es as [|e0 es IH]; intros vs l m ND.
  - split; [reflexivity|]. split; [intros [|i]; discriminate|reflexivity].
  - destruct vs as [|v0 vs]; [split; [reflexivity|]; split; [intros [|i]; discriminate|reflexivity]|].
    inversion ND as [|? ? Hn ND']; subst. unfold set_code. cbn [combine map alone fst snd]. fold (set_code es vs).
    destruct (IH vs l (put m (dc e0) v0) ND') as (A & B & C). split; [exact A|]. split.
    + intros [|i] e v He Hv; [|exact (B i e v He Hv)]. injection He as <-. injection Hv as <-. rewrite C; [apply put_same|].
      intros e He E. injection E as ->. apply Hn. rewrite <- (firstn_skipn (length vs) es). apply in_or_app. left. exact He.
    + intros c Hc. rewrite C; [|intros e He; apply Hc; right; exact He]. apply put_other. apply Hc. left. reflexivity.
Qed.
Lemma restore_vars es : forall s l m, fst (alone (map (fun ie : nat * nat => Store (dc (snd ie)) (fun l => nth (fst ie) (rev l) 0)) (combine (seq s (length es)) es)) l m) = l.
Proof. induction es as [|e es IH]; intros s l m; [reflexivity|]. cbn. apply IH. Qed.
Lemma blocks_body bs m0 schedule ts m : race_free (map block_thread bs) ->
  run schedule (map block_thread bs) m0 = (ts, m) -> finished ts ->
  forall t b, nth_error bs t = Some b -> NoDup (b_members b) ->
  exists th m1, nth_error ts t = Some th /\
  vars th = fst (alone (b_body b) (rev (map (fun e => m0 (dc e)) (b_members b))) m1) /\
  (forall i e v, nth_error (b_members b) i = Some e -> nth_error (b_voltages b) i = Some v -> m1 (dc e) = v) /\
  (forall c, (forall e, In e (firstn (length (b_voltages b)) (b_members b)) -> c <> dc e) -> m1 c = m0 c).
Proof.
  intros RF E F t b Hb ND. destruct (no_races _ _ RF schedule ts m E F) as (_ & H & _).
  destruct (H t (block_thread b)) as (th & Hth & Hv & _); [exact (map_nth_error block_thread t bs Hb)|].
  exists th, (snd (alone (set_code (b_members b) (b_voltages b)) (rev (map (fun e => m0 (dc e)) (b_members b))) m0)).
  destruct (set_alone (b_members b) (b_voltages b) (rev (map (fun e => m0 (dc e)) (b_members b))) m0 ND) as (A & B & C).
  split; [exact Hth|]. split; [|split; [exact B|exact C]].
  rewrite Hv. unfold block_thread. cbn [code vars]. unfold with_voltages_code. rewrite !alone_app, loads_alone, app_nil_r. cbn [fst snd].
  rewrite A. unfold restore_code. apply restore_vars.
Qed.
