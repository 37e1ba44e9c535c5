From Verif Require Import Base ModelExpr ModelField ModelGeom ModelTools SpecTensor SpecField SpecPoly SpecTools ProofField ProofSys ProofTools ProofAdjust.
Open Scope R_scope.
Notation length := List.length.

(** all moved electrodes with the change of their voltage *)
Definition flat (conf : list (list string)) (dvs : list R) : list (string * R) :=
  concat (map (fun ed => map (fun n => (n, snd ed)) (fst ed)) (combine conf dvs)).
Definition lasts (volts : dict (list R)) (n : string) : R := match dict_get volts n with Ok h => last h 0 | _ => 0 end.
Definition ends (volts : dict (list R)) (n : string) : Prop := exists h v, dict_get volts n = Ok (h ++ [v]).
Lemma lasts_eq volts n h v : dict_get volts n = Ok (h ++ [v]) -> lasts volts n = v.
Proof. unfold lasts. intros ->. apply last_last. Qed.
Lemma config_group_spec volts dv eles : forall config, (forall n, In n eles -> ends volts n) -> NoDup (map fst config ++ eles) ->
  config_group volts eles dv config = Ok (config ++ map (fun n => (n, lasts volts n + dv)) eles).
Proof.
  induction eles as [|n eles IH]; intros config H N; cbn [config_group map]; [now rewrite app_nil_r|].
  destruct (H n (or_introl eq_refl)) as (h & v & E). rewrite E. cbn [bind]. rewrite py_last. cbn [bind]. rewrite (lasts_eq _ _ _ _ E).
  assert (~ In n (map fst config)) as Nn by (apply NoDup_remove_2 in N; intros K; apply N, in_or_app; now left).
  rewrite set_new by exact Nn. rewrite IH; [rewrite <- app_assoc; reflexivity|intros m Hm; apply H; right; exact Hm|]. rewrite map_app. cbn [map fst]. rewrite <- app_assoc. exact N.
Qed.
Lemma nodup_left {A} (l m : list A) : NoDup (l ++ m) -> NoDup l.
Proof.
  induction l as [|a l IH]; cbn [app]; intros N; [constructor|]. inversion N as [|? ? N1 N2]; subst. constructor; [|auto]. intros H. apply N1, in_or_app. now left.
Qed.
Lemma config_loop_spec volts l : forall config, (forall n, In n (concat (map fst l)) -> ends volts n) -> NoDup (map fst config ++ concat (map fst l)) ->
  config_loop volts l config = Ok (config ++ concat (map (fun ed => map (fun n => (n, lasts volts n + snd ed)) (fst ed)) l)).
Proof.
  induction l as [|[eles dv] l IH]; intros config H N; cbn [config_loop map concat fst snd] in *; [now rewrite app_nil_r|].
  rewrite config_group_spec; [|intros n Hn; apply H, in_or_app; now left|].
  - cbn [bind]. rewrite IH; [rewrite <- app_assoc; reflexivity|intros n Hn; apply H, in_or_app; now right|]. rewrite map_app, map_map. cbn [fst]. rewrite map_id, <- app_assoc. exact N.
  - rewrite app_assoc in N. now apply nodup_left in N.
Qed.
Lemma combine_fst {A B} (l : list A) (m : list B) : length m = length l -> map fst (combine l m) = l.
Proof. revert m. induction l as [|a l IH]; intros [|b m]; cbn; try discriminate; [reflexivity|intros [= H]; now rewrite IH]. Qed.
Lemma flat_fst conf dvs : length dvs = length conf -> map fst (flat conf dvs) = concat conf.
Proof.
  intros L. unfold flat. rewrite concat_map, map_map. rewrite <- (combine_fst conf dvs L) at 2. f_equal. apply map_ext. intros [e d]. cbn [fst snd]. rewrite map_map. apply map_id.
Qed.
Lemma flat_in conf dvs n dv : In (n, dv) (flat conf dvs) <-> exists i eles, nth_error conf i = Some eles /\ nth_error dvs i = Some dv /\ In n eles.
Proof.
  unfold flat. revert dvs. induction conf as [|e conf IH]; intros dvs.
  - cbn. split; [intros []|]. intros ([|i] & eles & H & _); discriminate.
  - destruct dvs as [|d dvs]; cbn [combine map concat].
    + split; [intros []|]. intros ([|i] & eles & _ & H & _); discriminate.
    + rewrite in_app_iff, IH. cbn [fst snd]. split.
      * intros [H|(i & eles & H)]; [|exists (S i), eles; exact H]. apply in_map_iff in H as (m & [= <- <-] & H). exists 0%nat, e. repeat split; exact H.
      * intros ([|i] & eles & A & B & D); cbn in A, B; [|right; eauto]. injection A as ->. injection B as ->. left. apply in_map_iff. eauto.
Qed.
Lemma construct_spec {X C} (a : adjust X C) dvs : (forall n, In n (concat (aconf a)) -> ends (avolts a) n) -> NoDup (concat (aconf a)) -> length dvs = length (aconf a) ->
  construct_config a dvs = Ok (map (fun nd => (fst nd, lasts (avolts a) (fst nd) + snd nd)) (flat (aconf a) dvs)).
Proof.
  intros H N L. unfold construct_config. rewrite config_loop_spec.
  - cbn [app]. f_equal. unfold flat. rewrite concat_map, map_map. f_equal. apply map_ext. intros [e d]. cbn [fst snd]. rewrite map_map. reflexivity.
  - rewrite combine_fst by exact L. exact H.
  - cbn [map app]. rewrite combine_fst by exact L. exact N.
Qed.
Lemma ready_ends {X C} (a : adjust X C) : ready a -> forall n, In n (map ename (asys a)) -> ends (avolts a) n.
Proof.
  intros (N & K & H & _) n Hn. rewrite <- K in Hn. destruct (get_some _ _ Hn) as [h E]. assert (HH := E). apply get_in in HH; [|rewrite K; exact N].
  destruct (exists_last (H n h HH)) as (h' & v & ->). exists h', v. exact E.
Qed.
Lemma ready_last {X C} (a : adjust X C) : ready a -> forall n v, last_accepted a n v -> lasts (avolts a) n = v /\ In n (map ename (asys a)).
Proof.
  intros (N & K & H & _) n v (h & Hh). unfold history in Hh. split; [|rewrite <- K; apply (in_map fst) in Hh; exact Hh]. apply get_in in Hh; [|rewrite K; exact N]. now apply lasts_eq in Hh.
Qed.
Definition config_of {X C} (a : adjust X C) (dvs : list R) : dict R := map (fun nd => (fst nd, lasts (avolts a) (fst nd) + snd nd)) (flat (aconf a) dvs).
Lemma config_keys {X C} (a : adjust X C) dvs : length dvs = length (aconf a) -> map fst (config_of a dvs) = concat (aconf a).
Proof. intros L. unfold config_of. rewrite map_map. cbn [fst]. apply flat_fst, L. Qed.
Lemma config_get {X C} (a : adjust X C) dvs n dv : NoDup (concat (aconf a)) -> length dvs = length (aconf a) -> moved_by a dvs n dv -> dict_get (config_of a dvs) n = Ok (lasts (avolts a) n + dv).
Proof.
  intros N L H. apply get_in; [rewrite config_keys; assumption|]. apply flat_in in H. unfold config_of. apply in_map_iff. exists (n, dv). split; [reflexivity|exact H].
Qed.
Lemma config_not {X C} (a : adjust X C) dvs n : length dvs = length (aconf a) -> ~ In n (concat (aconf a)) -> exists e, dict_get (config_of a dvs) n = Raise e.
Proof.
  intros L H. destruct (dict_get (config_of a dvs) n) eqn:E; [|eauto]. exfalso. apply H. rewrite <- (config_keys a dvs L). unfold dict_get in E. destruct (find _ _) as [[k u]|] eqn:F; [|discriminate].
  apply find_some in F as [F G]. apply String.eqb_eq in G. cbn in G. subst. apply (in_map fst) in F. exact F.
Qed.
Lemma config_good {X C} (a : adjust X C) dvs : ready a -> length dvs = length (aconf a) -> good_config (map ename (asys a)) (config_of a dvs).
Proof. intros (N & K & H & Nc & I) L. split; rewrite config_keys by exact L; assumption. Qed.
Lemma construct_ready {X C} (a : adjust X C) dvs : ready a -> length dvs = length (aconf a) -> construct_config a dvs = Ok (config_of a dvs).
Proof. intros R L. assert (R' := R). destruct R' as (_ & _ & _ & Nc & I). apply construct_spec; [|exact Nc|exact L]. intros n Hn. apply (ready_ends a R), I, Hn. Qed.

(** ** next_step *)
Lemma accept_step {X C} (a : adjust X C) dvs x c : ready a -> length dvs = length (aconf a) -> apropose a = Some (dvs, x, c) ->
  exists a', next_step None true a = (a', Ok tt) /\ Forall2 same_but_dc (asys a') (asys a) /\
  axms a' = axms a ++ [x] /\ acurves a' = acurves a ++ [c] /\ apropose a' = None /\ aconf a' = aconf a /\ map fst (avolts a') = map ename (asys a) /\
  (forall n dv h v, moved_by a dvs n dv -> history a n (h ++ [v]) -> history a' n (h ++ [v; v + dv]) /\ dc_of (asys a') n = Some (v + dv)) /\
  (forall n h v, ~ In n (concat (aconf a)) -> history a n (h ++ [v]) -> history a' n (h ++ [v; v]) /\ dc_of (asys a') n = dc_of (asys a) n).
Proof.
  intros R L P. unfold next_step. cbn [negb]. rewrite P, construct_ready by assumption. assert (R' := R). destruct R' as (N & K & H & Nc & I).
  destruct (set_volts_saved (config_of a dvs) a (config_good a dvs R L) K N) as (s & v & E & F & D & Kv & V).
  { intros n Hn _. apply (ready_ends a R n Hn). }
  rewrite E. eexists. split; [reflexivity|]. cbn [asys avolts aconf axms acurves apropose]. split; [exact F|]. repeat (split; [reflexivity|]). split; [rewrite Kv; apply same_names, F|].
  assert (Nv : NoDup (map fst v)) by (rewrite Kv, (same_names _ _ F); exact N).
  split.
  - intros n dv h w Hm Hh. destruct (ready_last a R n w (ex_intro _ h Hh)) as [Lw Hn]. assert (G := config_get a dvs n dv Nc L Hm). rewrite Lw in G.
    assert (E0 : dict_get (avolts a) n = Ok (h ++ [w])) by (apply get_in; [rewrite K; exact N|exact Hh]). split.
    + unfold history. cbn [avolts]. apply get_in; [exact Nv|]. rewrite V by exact Hn. rewrite G, E0. cbn [bind]. now rewrite <- app_assoc.
    + rewrite D. unfold configured. now rewrite G.
  - intros n h w Hn Hh. destruct (ready_last a R n w (ex_intro _ h Hh)) as [Lw Hin]. destruct (config_not a dvs n L Hn) as [e G].
    assert (E0 : dict_get (avolts a) n = Ok (h ++ [w])) by (apply get_in; [rewrite K; exact N|exact Hh]). split.
    + unfold history. cbn [avolts]. apply get_in; [exact Nv|]. rewrite V by exact Hin. rewrite G, E0. cbn [repeated]. rewrite py_last. cbn [bind]. now rewrite <- app_assoc.
    + rewrite D. unfold configured. now rewrite G.
Qed.
(** a proposal changes the voltages of the system and nothing takes them back *)
Lemma propose_effect {X C} minimum modes (xm0 : X) (a a' : adjust X C) dvs : ready a -> length dvs = length (aconf a) ->
  propose_move minimum modes xm0 (Ok dvs) a = (a', Ok tt) ->
  Forall2 same_but_dc (asys a') (asys a) /\ avolts a' = avolts a /\ aconf a' = aconf a /\
  (forall n dv v, moved_by a dvs n dv -> last_accepted a n v -> dc_of (asys a') n = Some (v + dv)) /\
  (forall n, ~ In n (concat (aconf a)) -> dc_of (asys a') n = dc_of (asys a) n) /\ exists x c, apropose a' = Some (dvs, x, c).
Proof.
  intros R L. unfold propose_move. rewrite construct_ready by assumption. assert (R' := R). destruct R' as (N & K & H & Nc & I).
  destruct (set_volts_unsaved (config_of a dvs) a (config_good a dvs R L)) as (s & E & F & D). rewrite E.
  destruct (minimum _ _) as [x|]; [|discriminate]. destruct (modes _ _) as [c|]; [|discriminate]. intros [= <-]. cbn [asys avolts aconf apropose with_sys].
  split; [exact F|]. split; [reflexivity|]. split; [reflexivity|]. split; [|split; [|eauto]].
  - intros n dv v Hm Hl. destruct (ready_last a R n v Hl) as [Lw Hn]. rewrite D. unfold configured. rewrite (config_get a dvs n dv Nc L Hm), Lw. reflexivity.
  - intros n Hn. destruct (config_not a dvs n L Hn) as [e G]. rewrite D. unfold configured. now rewrite G.
Qed.
Lemma reject_fails {X C} deltaV (a : adjust X C) : next_step deltaV false a = (a, Raise AttributeError).
Proof. reflexivity. Qed.

(** ** C96: the gradient after a move *)
Lemma gradient1_spec g x : well_formed g -> exists r, gradient1 g x = Ok r /\ length r = 3%nat /\ forall k, nth k r 0 = unit_term g 1 k x.
Proof.
  intros W. unfold gradient1. rewrite potential_none. destruct (potential_spec g [x] 1 1 _ W (zeros_shaped 1 1)) as (o & E & [L S] & V). cbn [length] in *. rewrite E. cbn [bind].
  destruct o as [|r [|? ?]]; try discriminate. exists r. split; [reflexivity|]. split; [inversion S; assumption|]. intros k. specialize (V 0%nat k ltac:(lia)). unfold cell in V. cbn [nth at_] in V. rewrite V.
  assert (Z := zeros_cell 1 1 0 k). unfold cell in Z. rewrite Z. unfold at_. cbn [nth]. ring.
Qed.
Lemma nth_add_into r : forall i k, length i = length r -> nth k (add_into r i) 0 = nth k r 0 + nth k i 0.
Proof.
  induction r as [|a r IH]; intros [|b i] [|k]; cbn; try discriminate; intros; try ring. apply IH. congruence.
Qed.
Lemma len_add_into r : forall i, length (add_into r i) = length r.
Proof. induction r as [|a r IH]; intros [|b i]; cbn; [reflexivity..|]. now rewrite IH. Qed.
Lemma coef_spec s x eles : (forall e, In e s -> well_formed (egeom e)) -> forall col r, length col = 3%nat -> coef_column s x eles col = Ok r ->
  length r = 3%nat /\ incl eles (map ename s) /\
  forall k, nth k r 0 = nth k col 0 + sum_over eles (fun n => match find (fun e => String.eqb (ename e) n) s with Some e => unit_term (egeom e) 1 k x | None => 0 end).
Proof.
  intros W. induction eles as [|n eles IH]; intros col r Lc E; cbn [coef_column] in E.
  - injection E as <-. split; [exact Lc|]. split; [intros m []|]. intros k. unfold sum_over. cbn. ring.
  - unfold find_electrode in E. destruct (find _ s) as [e|] eqn:F; [|discriminate]. cbn [bind] in E. assert (F' := F). apply find_some in F' as [He En]. apply String.eqb_eq in En.
    destruct (gradient1_spec (egeom e) x (W e He)) as (g & Eg & Lg & Vg). rewrite Eg in E. cbn [bind] in E.
    destruct (IH _ _ (eq_trans (len_add_into _ _) Lc) E) as (L & I & V). split; [exact L|]. split.
    + intros m [<-|Hm]; [rewrite <- En; now apply in_map|now apply I].
    + intros k. rewrite V, nth_add_into by congruence. rewrite sum_cons, F, Vg. ring.
Qed.
Lemma collect_forall2 {A B} (f : A -> res B) l out : collect_res (map f l) = Ok out -> Forall2 (fun a b => f a = Ok b) l out.
Proof.
  revert out. induction l as [|a l IH]; intros out; cbn [map collect_res]; [intros [= <-]; constructor|]. destruct (f a) eqn:E; cbn [bind]; [|discriminate]. destruct (collect_res (map f l)) eqn:E'; cbn [bind]; [|discriminate]. intros [= <-]. constructor; auto.
Qed.
(** change of the voltage of electrode n *)
Definition delta (D : list (string * R)) (n : string) : R := sum_over D (fun nd => if String.eqb (fst nd) n then snd nd else 0).
Lemma delta_in D n v : NoDup (map fst D) -> In (n, v) D -> delta D n = v.
Proof.
  unfold delta. induction D as [|[m w] D IH]; intros N H; [destruct H|]. inversion N as [|? ? N1 N2]; subst. rewrite sum_cons. cbn [fst snd]. destruct H as [[= -> ->]|H].
  - rewrite String.eqb_refl. rewrite sum_zero; [ring|]. intros [m u] Hm. cbn [fst snd]. destruct (String.eqb_spec m n) as [->|]; [|reflexivity]. exfalso. apply N1. apply (in_map fst) in Hm. exact Hm.
  - destruct (String.eqb_spec m n) as [->|]; [exfalso; apply N1; apply (in_map fst) in H; exact H|]. rewrite IH by assumption. ring.
Qed.
Lemma delta_out D n : ~ In n (map fst D) -> delta D n = 0.
Proof. intros H. unfold delta. apply sum_zero. intros [m u] Hm. cbn [fst snd]. destruct (String.eqb_spec m n) as [->|]; [|reflexivity]. exfalso. apply H. apply (in_map fst) in Hm. exact Hm. Qed.
Lemma find_unique s e : NoDup (map ename s) -> In e s -> find (fun e' => String.eqb (ename e') (ename e)) s = Some e.
Proof.
  induction s as [|e0 s IH]; intros N H; [destruct H|]. inversion N as [|? ? N1 N2]; subst. cbn [find]. destruct H as [->|H]; [now rewrite String.eqb_refl|].
  destruct (String.eqb_spec (ename e0) (ename e)) as [E|]; [exfalso; apply N1; rewrite E; now apply in_map|now apply IH].
Qed.
Lemma pick s n (u : electrode -> R) : NoDup (map ename s) -> In n (map ename s) ->
  sum_over s (fun e => if String.eqb n (ename e) then u e else 0) = match find (fun e => String.eqb (ename e) n) s with Some e => u e | None => 0 end.
Proof.
  induction s as [|e s IH]; intros N H; [destruct H|]. inversion N as [|? ? N1 N2]; subst. rewrite sum_cons. cbn [find]. rewrite (String.eqb_sym n). destruct (String.eqb_spec (ename e) n) as [E|D].
  - rewrite sum_zero; [ring|]. intros e' He'. destruct (String.eqb_spec n (ename e')) as [E'|]; [|reflexivity]. exfalso. apply N1. rewrite E, E'. now apply in_map.
  - destruct H as [H|H]; [congruence|]. rewrite IH by assumption. ring.
Qed.
Lemma gradient_change s s' D x k : (forall e, In e s -> well_formed (egeom e)) -> NoDup (map ename s) -> incl (map fst D) (map ename s) -> Forall2 same_but_dc s' s ->
  (forall n v, dc_of s n = Some v -> dc_of s' n = Some (v + delta D n)) ->
  sum_over s' (fun e => edc e * unit_term (egeom e) 1 k x) = sum_over s (fun e => edc e * unit_term (egeom e) 1 k x) +
  sum_over D (fun nd => snd nd * match find (fun e => String.eqb (ename e) (fst nd)) s with Some e => unit_term (egeom e) 1 k x | None => 0 end).
Proof.
  intros W N I F Dc. transitivity (sum_over s (fun e => (edc e + delta D (ename e)) * unit_term (egeom e) 1 k x)).
  - assert (K : Forall2 (fun e' e => egeom e' = egeom e /\ edc e' = edc e + delta D (ename e)) s' s).
    { assert (N' : NoDup (map ename s')) by (rewrite (same_names _ _ F); exact N).
      assert (J : forall e e', In e s -> In e' s' -> ename e' = ename e -> edc e' = edc e + delta D (ename e)).
      { intros e e' He He' Ee. specialize (Dc (ename e) (edc e)). unfold dc_of in Dc. rewrite (find_unique s e N He) in Dc. specialize (Dc eq_refl). assert (U := find_unique s' e' N' He'). rewrite Ee in U. rewrite U in Dc. cbn [option_map] in Dc. congruence. }
      clear -F J. induction F as [|e' e s' s (A & B & C) F IH]; constructor.
      - split; [exact C|]. apply J; [left; reflexivity|left; reflexivity|exact A].
      - apply IH. intros a b Ha Hb. apply J; right; assumption. }
    clear -K. induction K as [|e' e s' s [A B] K IH]; [reflexivity|]. rewrite !sum_cons, IH, A, B. reflexivity.
  - transitivity (sum_over s (fun e => edc e * unit_term (egeom e) 1 k x) + sum_over s (fun e => delta D (ename e) * unit_term (egeom e) 1 k x)).
    { rewrite <- sum_plus. apply sum_ext. intros. ring. }
    f_equal. unfold delta.
    transitivity (sum_over s (fun e => sum_over D (fun nd => snd nd * (if String.eqb (fst nd) (ename e) then unit_term (egeom e) 1 k x else 0)))).
    { apply sum_ext. intros e He. rewrite Rmult_comm, <- sum_scal. apply sum_ext. intros [n v] _. cbn [fst snd]. destruct (String.eqb n (ename e)); ring. }
    rewrite sum_swap. apply sum_ext. intros [n v] Hn. cbn [fst snd]. rewrite sum_scal. f_equal. apply pick; [exact N|]. apply I. apply (in_map fst) in Hn. exact Hn.
Qed.
Lemma sum_flat_groups conf (f : string -> R) cols k : forall dvs, Forall2 (fun eles (r : row) => nth k r 0 = sum_over eles f) conf cols ->
  sum_over (flat conf dvs) (fun nd => snd nd * f (fst nd)) = sum_over (combine cols dvs) (fun cd => snd cd * nth k (fst cd) 0).
Proof.
  intros dvs H. revert dvs. unfold flat. induction H as [|eles r conf cols E H IH]; intros [|d dvs]; cbn [combine map concat]; [reflexivity..|]. rewrite sum_app, sum_cons, IH. cbn [fst snd]. f_equal. rewrite sum_map. cbn [fst snd]. rewrite sum_scal. now rewrite E.
Qed.
Lemma move_gradient {X C} solve minimum modes (xm0 : X) (a a' : adjust X C) x b dvs : ready a -> solves solve ->
  (forall e, In e (asys a) -> well_formed (egeom e)) -> (forall n v, last_accepted a n v -> dc_of (asys a) n = Some v) ->
  volt_change solve a x b = Ok dvs -> propose_move minimum modes xm0 (volt_change solve a x b) a = (a', Ok tt) ->
  Forall2 same_but_dc (asys a') (asys a) /\
  exists p p', electrical_potential (asys a) [x] 1 TDc = Ok p /\ electrical_potential (asys a') [x] 1 TDc = Ok p' /\
  forall k, (k < 3)%nat -> cell p' 0 k = cell p 0 k + nth k b 0.
Proof.
  intros R S W Dc V P. rewrite V in P. unfold volt_change in V. destruct (collect_res _) as [cols|] eqn:E; [|discriminate]. cbn [bind] in V. destruct (S _ _ _ V) as [L Eq].
  apply collect_forall2 in E. assert (L' : length dvs = length (aconf a)) by (rewrite L; symmetry; eapply Forall2_len; exact E).
  destruct (propose_effect minimum modes xm0 a a' dvs R L' P) as (F & _ & _ & M & U & _). split; [exact F|].
  assert (W' : forall e, In e (asys a') -> well_formed (egeom e)).
  { clear -W F. induction F as [|e' e s' s (A & B & C') F IH]; intros e0 H0; [destruct H0|]. destruct H0 as [<-|H]; [rewrite C'; apply W; now left|apply IH; [intros e1 H1; apply W; now right|exact H]]. }
  destruct (electrical_spec (asys a) [x] 1 TDc W) as (p & Ep & _ & Vp). destruct (electrical_spec (asys a') [x] 1 TDc W') as (p' & Ep' & _ & Vp').
  exists p, p'. split; [exact Ep|]. split; [exact Ep'|]. intros k Hk. rewrite Vp, Vp' by (cbn; lia). unfold at_. cbn [nth volt_of]. assert (R' := R). destruct R' as (N & K & H & Nc & I).
  assert (FF := flat_fst (aconf a) dvs L').
  rewrite (gradient_change (asys a) (asys a') (flat (aconf a) dvs) x k W N); [|rewrite FF; exact I|exact F|].
  - f_equal. rewrite (sum_flat_groups (aconf a) (fun n => match find (fun e => String.eqb (ename e) n) (asys a) with Some e => unit_term (egeom e) 1 k x | None => 0 end) cols k); [apply Eq, Hk|].
    clear -E W. induction E as [|eles r conf cols E _ IH]; constructor; [|exact IH]. destruct (coef_spec _ _ _ W [0; 0; 0] r eq_refl E) as (_ & _ & V). rewrite V. destruct k as [|[|[|[|k]]]]; cbn [nth]; ring.
  - intros n v Hv. assert (Hn : In n (map ename (asys a))). { unfold dc_of in Hv. destruct (find _ _) as [e|] eqn:Fe; [|discriminate]. apply find_some in Fe as [Fe Ee]. apply String.eqb_eq in Ee. subst. now apply in_map. }
    destruct (in_dec String.string_dec n (concat (aconf a))) as [Hc|Hc].
    + destruct (ready_ends a R n Hn) as (h & w & Eh). assert (La : last_accepted a n w). { exists h. unfold history. apply get_in in Eh; [exact Eh|rewrite K; exact N]. }
      assert (w = v) as -> by (specialize (Dc n w La); congruence).
      rewrite <- FF in Hc. apply in_map_iff in Hc as ([m dv] & Em & Hd). cbn in Em. subst m. rewrite (delta_in _ n dv); [|rewrite FF; exact Nc|exact Hd]. apply flat_in in Hd. apply M; [exact Hd|exact La].
    + rewrite delta_out by (rewrite FF; exact Hc). rewrite Rplus_0_r. rewrite U by exact Hc. exact Hv.
Qed.
Lemma rf_same s' s x d : Forall2 same_but_dc s' s -> electrical_potential s' [x] d TRf = electrical_potential s [x] d TRf.
Proof.
  unfold electrical_potential. intros F. generalize (zeros d (length [x])). induction F as [|e' e s' s (A & B & C) F IH]; intros o; cbn [el_loop volt]; [reflexivity|]. rewrite B, C.
  repeat match goal with |- context [if ?b then _ else _] => destruct b end; try apply IH. destruct (potential _ _ _ _ _); cbn [bind]; [apply IH|reflexivity].
Qed.
Lemma pseudo_same c s' s x d : Forall2 same_but_dc s' s -> pseudo_potential c s' x d = pseudo_potential c s x d.
Proof.
  intros F. unfold pseudo_potential. destruct c as [c|]; [|reflexivity]. f_equal. f_equal. apply map_ext. intros i. unfold rf_tensor, electrical_potential_expanded. now rewrite (rf_same _ _ x i F).
Qed.
Lemma entry_cell s x p k : wf s -> electrical_potential s [x] 1 TDc = Ok p -> (k < 3)%nat -> tensor_entry s TDc 1 [k] x = cell p 0 k.
Proof.
  intros W E Hk. rewrite tensor_entry_any by (auto; lia). destruct (electrical_spec s [x] 1 TDc W) as (q & Eq & _ & V). rewrite E in Eq. injection Eq as <-. rewrite V by (cbn; lia). unfold at_. cbn [nth].
  destruct k as [|[|[|k]]]; [| | |lia]; reflexivity.
Qed.
Lemma position_zero {X C} solve minimum modes (xm0 : X) (a a' : adjust X C) x b dvs c T : ready a -> solves solve ->
  (forall e, In e (asys a) -> well_formed (egeom e)) -> (forall n v, last_accepted a n v -> dc_of (asys a) n = Some v) ->
  total_potential (Some c) (asys a) x 1 "tot" = Ok T -> b = [- T [0%nat]; - T [1%nat]; - T [2%nat]] ->
  volt_change solve a x b = Ok dvs -> propose_move minimum modes xm0 (volt_change solve a x b) a = (a', Ok tt) ->
  exists T', total_potential (Some c) (asys a') x 1 "tot" = Ok T' /\ forall k, (k < 3)%nat -> T' [k] = 0.
Proof.
  intros R S W Dc ET Eb V P. destruct (move_gradient solve minimum modes xm0 a a' x b dvs R S W Dc V P) as (F & p & p' & Ep & Ep' & M).
  assert (W' : wf (asys a')).
  { clear -W F. induction F as [|e' e s' s (A & B & C') F IH]; intros e0 H0; [destruct H0|]. destruct H0 as [<-|H]; [rewrite C'; apply W; now left|apply IH; [intros e1 H1; apply W; now right|exact H]]. }
  destruct (total_parts c (asys a) x 1 W ltac:(lia)) as (dc & rf & tot & _ & _ & E & S1 & D1 & R1).
  destruct (total_parts c (asys a') x 1 W' ltac:(lia)) as (dc' & rf' & tot' & _ & _ & E' & S2 & D2 & R2).
  rewrite E in ET. injection ET as ET. subst T. exists tot'. split; [exact E'|]. intros k Hk. rewrite S2, D2, R2. rewrite (entry_cell (asys a') x p' k W' Ep' Hk), (M k Hk), <- (entry_cell (asys a) x p k W Ep Hk). unfold pseudo_entry. rewrite (pseudo_same (Some c) _ _ x 1 F). fold (pseudo_entry c (asys a) 1 [k] x).
  rewrite <- D1, <- R1. rewrite Eb. destruct k as [|[|[|k]]]; [| | |lia]; cbn [nth]; rewrite S1; ring.
Qed.
Lemma reject_stays {X C} deltaV minimum modes (xm0 : X) (a a' : adjust X C) dvs n dv v : ready a -> length dvs = length (aconf a) ->
  propose_move minimum modes xm0 (Ok dvs) a = (a', Ok tt) -> moved_by a dvs n dv -> last_accepted a n v ->
  next_step deltaV false a' = (a', Raise AttributeError) /\ dc_of (asys a') n = Some (v + dv).
Proof. intros R L P M La. split; [apply reject_fails|]. destruct (propose_effect minimum modes xm0 a a' dvs R L P) as (_ & _ & _ & H & _). now apply H. Qed.
Lemma own_step {X C} (a : adjust X C) dvs : ready a -> length dvs = length (aconf a) ->
  exists a', next_step (Some dvs) true a = (a', Raise UnboundLocalError) /\
  forall n dv h v, moved_by a dvs n dv -> history a n (h ++ [v]) -> history a' n (h ++ [v; v + dv]).
Proof.
  intros R L. unfold next_step. cbn [negb]. rewrite construct_ready by assumption. assert (R' := R). destruct R' as (N & K & H & Nc & I).
  destruct (set_volts_saved (config_of a dvs) a (config_good a dvs R L) K N) as (s & v & E & F & D & Kv & V).
  { intros n Hn _. apply (ready_ends a R n Hn). }
  rewrite E. eexists. split; [reflexivity|]. intros n dv h w Hm Hh. destruct (ready_last a R n w (ex_intro _ h Hh)) as [Lw Hn]. assert (G := config_get a dvs n dv Nc L Hm). rewrite Lw in G.
  assert (E0 : dict_get (avolts a) n = Ok (h ++ [w])) by (apply get_in; [rewrite K; exact N|exact Hh]).
  unfold history. cbn [avolts]. apply get_in; [rewrite Kv, (same_names _ _ F); exact N|]. rewrite V by exact Hn. rewrite G, E0. cbn [bind]. now rewrite <- app_assoc.
Qed.
