From Coq Require Import Permutation Sorted.
From Verif Require Import Base ModelExpr ModelField ModelGeom ModelLayout SpecPoly SpecLayout ProofPoly2 ProofPoly3 ProofLayout.
Open Scope R_scope.
Notation length := List.length.

(** ** to_system *)
Lemma area_rev l : signed_area (rev l) = - signed_area l.
Proof. unfold signed_area. fold (path_sum cross2 (rev l)). fold (path_sum cross2 l). rewrite (path_sum_rev cross2 cross_swap). field. Qed.
Lemma area_closed v l : signed_area (v :: l ++ [v]) = signed_area (v :: l).
Proof.
  unfold signed_area. fold (path_sum cross2 (v :: l ++ [v])). fold (path_sum cross2 (v :: l)). f_equal.
  unfold path_sum. rewrite !edges_chain.
  rewrite <- app_assoc. cbn [app].
  assert (K : forall a m, chain cross2 a (m ++ [v; v]) = chain cross2 a (m ++ [v])).
  { clear. intros a m. revert a. induction m as [|b m IH]; intros a; cbn [app chain]; [unfold cross2; ring|]. now rewrite IH. }
  apply K.
Qed.
Lemma ring_paths (ccw : list p2 -> bool) r : closed_ring r -> (ccw r = true <-> 0 < signed_area r) -> signed_area r <> 0 ->
  (let p := removelast (if ccw r then r else rev r) in opened r p /\ signed_area p = size r) /\
  (let p := removelast (if ccw r then rev r else r) in opened r p /\ signed_area p = - size r).
Proof.
  intros (v & l & ->) C N.
  assert (A : removelast (v :: l ++ [v]) = v :: l) by apply (removelast_last (v :: l) v).
  assert (B : removelast (rev (v :: l ++ [v])) = v :: rev l).
  { cbn [rev]. rewrite rev_app_distr. cbn [rev app]. apply (removelast_last (v :: rev l) v). }
  assert (O1 : opened (v :: l ++ [v]) (v :: l)) by (exists v, l; auto).
  assert (O2 : opened (v :: l ++ [v]) (v :: rev l)).
  { exists v, (rev l). split; [reflexivity|]. right. cbn [rev]. rewrite rev_app_distr. cbn [rev app]. now rewrite rev_involutive. }
  assert (S1 := area_closed v l).
  assert (S2 : signed_area (v :: rev l) = - signed_area (v :: l ++ [v])).
  { rewrite <- (area_closed v (rev l)), <- area_rev. cbn [rev]. rewrite rev_app_distr. reflexivity. }
  unfold size. cbv zeta. destruct (ccw (v :: l ++ [v])) eqn:E.
  - assert (0 < signed_area (v :: l ++ [v])) by (apply C; reflexivity). rewrite A, B, (Rabs_pos_eq (signed_area (v :: l ++ [v]))) by lra. split; split; auto; lra.
  - assert (signed_area (v :: l ++ [v]) < 0) as H.
    { destruct (Rtotal_order (signed_area (v :: l ++ [v])) 0) as [H|[H|H]]; [exact H|contradiction|]. apply C in H. discriminate. }
    rewrite A, B, (Rabs_left (signed_area (v :: l ++ [v]))) by exact H. split; split; auto; lra.
Qed.
Lemma to_paths_spec ccw ok p :
  ok p = true -> (forall r, In r (exterior p :: interiors p) -> closed_ring r /\ (ccw r = true <-> 0 < signed_area r) /\ signed_area r <> 0) ->
  exists e hs, to_paths ccw ok p = e :: hs /\ opened (exterior p) e /\ signed_area e = size (exterior p) /\
  Forall2 (fun h r => opened r h /\ signed_area h = - size r) hs (interiors p).
Proof.
  intros O H. unfold to_paths. rewrite O. do 2 eexists. split; [reflexivity|].
  destruct (H (exterior p) (or_introl eq_refl)) as (C1 & C2 & C3). destruct (ring_paths ccw _ C1 C2 C3) as [[A B] _]. split; [exact A|]. split; [exact B|].
  assert (H' : forall r, In r (interiors p) -> closed_ring r /\ (ccw r = true <-> 0 < signed_area r) /\ signed_area r <> 0) by (intros r Hr; apply H; right; exact Hr).
  clear -H'. induction (interiors p) as [|r rs IH]; cbn [map]; constructor.
  - destruct (H' r (or_introl eq_refl)) as (C1 & C2 & C3). apply (ring_paths ccw _ C1 C2 C3).
  - apply IH. intros s Hs. apply H'. right. exact Hs.
Qed.

(** ** unify_by_name *)
Lemma with_name_app {G} n (a b : list (string * G)) : with_name n (a ++ b) = with_name n a ++ with_name n b.
Proof. unfold with_name. now rewrite filter_app, map_app. Qed.
Lemma dict_append_spec {G} (pre : list (string * G)) names n x : NoDup names ->
  (forall m, In m names <-> In m (map fst pre)) ->
  dict_append (map (fun m => (m, with_name m pre)) names) n x =
  map (fun m => (m, with_name m (pre ++ [(n, x)]))) (if existsb (String.eqb n) names then names else names ++ [n]).
Proof.
  intros N H.
  assert (W : forall m, with_name m (pre ++ [(n, x)]) = with_name m pre ++ (if String.eqb n m then [x] else [])).
  { intros m. rewrite with_name_app. f_equal. unfold with_name. cbn. now destruct (String.eqb n m). }
  assert (Z : ~ In n names -> with_name n pre = []).
  { intros Hn. unfold with_name. rewrite H in Hn. clear -Hn. induction pre as [|[m g] pre IH]; [reflexivity|]. cbn [filter fst]. destruct (String.eqb_spec m n) as [->|]; [exfalso; apply Hn; left; reflexivity|]. apply IH. intros K. apply Hn. right. exact K. }
  clear H. induction names as [|m names IH]; cbn [map dict_append existsb app].
  - rewrite W, String.eqb_refl, Z by (intros []). reflexivity.
  - inversion N as [|? ? Nm Nn]; subst. destruct (String.eqb_spec m n) as [->|D].
    + rewrite String.eqb_refl. cbn [orb map]. rewrite W, String.eqb_refl. f_equal. apply map_ext_in. intros m Hm. rewrite W.
      destruct (String.eqb_spec n m) as [->|]; [contradiction|]. now rewrite app_nil_r.
    + destruct (String.eqb_spec n m) as [E|_]; [congruence|]. cbn [orb].
      rewrite IH; [|exact Nn|intros K; apply Z; intros [->|K']; [congruence|contradiction]].
      destruct (existsb (String.eqb n) names); cbn [map app]; rewrite (W m); (destruct (String.eqb_spec n m) as [E|_]; [congruence|]); now rewrite app_nil_r.
Qed.
Lemma firsts_snoc seen l n : firsts seen (l ++ [n]) = firsts seen l ++ (if existsb (String.eqb n) (seen ++ l) then [] else [n]).
Proof.
  revert seen. induction l as [|m l IH]; intros seen; cbn [app firsts].
  - rewrite app_nil_r. destruct (existsb _ seen); reflexivity.
  - destruct (existsb (String.eqb m) seen) eqn:E.
    + rewrite IH. f_equal. rewrite !existsb_app. cbn [existsb]. destruct (String.eqb_spec n m) as [->|]; [|reflexivity]. rewrite E. reflexivity.
    + rewrite IH. cbn [app]. do 2 f_equal. rewrite !existsb_app. cbn [app existsb]. rewrite existsb_app. destruct (String.eqb n m), (existsb (String.eqb n) seen); reflexivity.
Qed.
Lemma existsb_in n l : existsb (String.eqb n) l = true <-> In n l.
Proof. rewrite existsb_exists. split; [intros (m & H & E); apply String.eqb_eq in E; now subst|]. intros H. exists n. split; [exact H|apply String.eqb_refl]. Qed.
Lemma firsts_in seen l n : In n (firsts seen l) <-> In n l /\ ~ In n seen.
Proof.
  revert seen. induction l as [|m l IH]; intros seen; cbn [firsts In]; [tauto|]. destruct (existsb (String.eqb m) seen) eqn:E.
  - apply existsb_in in E. rewrite IH. split; [tauto|]. intros [[->|H] K]; [contradiction|auto].
  - assert (~ In m seen) as Nm by (intros K; apply existsb_in in K; congruence). cbn [In]. rewrite IH. cbn [In]. split.
    + intros [->|[H K]]; [auto|]. split; [auto|]. tauto.
    + intros [[->|H] K]; [auto|]. destruct (String.string_dec m n) as [->|D]; [auto|]. right. split; [exact H|]. intros [->|K']; [congruence|contradiction].
Qed.
Lemma firsts_nodup seen l : NoDup (firsts seen l).
Proof.
  revert seen. induction l as [|m l IH]; intros seen; cbn [firsts]; [constructor|]. destruct (existsb _ seen); [apply IH|]. constructor; [|apply IH].
  rewrite firsts_in. intros [_ K]. apply K. left. reflexivity.
Qed.
Lemma unify_by_name_spec {G} (uu : list G -> G) self :
  unify_by_name uu self = map (fun n => (n, uu (with_name n self))) (firsts [] (map fst self)).
Proof.
  unfold unify_by_name.
  assert (E : fold_left (fun d np => dict_append d (fst np) (snd np)) self [] = map (fun m => (m, with_name m self)) (firsts [] (map fst self))).
  { induction self as [|[n x] self IH] using rev_ind; [reflexivity|]. rewrite fold_left_app, IH. cbn [fold_left fst snd]. rewrite dict_append_spec.
    - f_equal. rewrite map_app. cbn [map fst]. rewrite firsts_snoc. cbn [app]. destruct (existsb (String.eqb n) (firsts [] (map fst self))) eqn:A, (existsb (String.eqb n) (map fst self)) eqn:B; try reflexivity.
      + now rewrite app_nil_r.
      + apply existsb_in, firsts_in in A as [A _]. apply existsb_in in A. congruence.
      + apply existsb_in in B. assert (In n (firsts [] (map fst self))) as K by (apply firsts_in; split; [exact B|intros []]). apply existsb_in in K. congruence.
    - apply firsts_nodup.
    - intros m. rewrite firsts_in. cbn. tauto. }
  rewrite E, map_map. reflexivity.
Qed.

(** ** filter *)
Lemma flat_map_flat_map {A B C} (f : A -> list B) (g : B -> list C) l : flat_map g (flat_map f l) = flat_map (fun x => flat_map g (f x)) l.
Proof. induction l as [|x l IH]; cbn; [reflexivity|]. now rewrite flat_map_app, IH. Qed.
Lemma filter_flat_map {A B} (p : B -> bool) (f : A -> list B) l : filter p (flat_map f l) = flat_map (fun x => filter p (f x)) l.
Proof. induction l as [|x l IH]; cbn; [reflexivity|]. now rewrite filter_app, IH. Qed.
Lemma filter_map_comm {A B} (p : B -> bool) (f : A -> B) l : filter p (map f l) = map f (filter (fun x => p (f x)) l).
Proof. induction l as [|x l IH]; cbn; [reflexivity|]. destruct (p (f x)); cbn; now rewrite IH. Qed.
Lemma filter_flat_spec test self :
  flat (filter_flat test self) = filter (fun np => test (fst np) (snd np)) (flat self) /\
  map fst (filter_flat test self) = map fst (filter (fun np => existsb (test (fst np)) (geoms (snd np))) self).
Proof.
  split.
  - unfold flat, filter_flat. rewrite flat_map_flat_map, filter_flat_map. apply flat_map_ext. intros [n s]. cbn [fst snd].
    rewrite filter_map_comm. cbn [fst snd]. destruct (filter (test n) (geoms s)) eqn:E; cbn [truthy flat_map geoms snd fst app]; [|rewrite app_nil_r]; reflexivity.
  - unfold filter_flat. induction self as [|[n s] self IH]; [reflexivity|]. cbn [flat_map fst snd filter].
    assert (truthy (filter (test n) (geoms s)) = existsb (test n) (geoms s)) as E.
    { induction (geoms s) as [|p ps IHp]; [reflexivity|]. cbn. destruct (test n p); [reflexivity|exact IHp]. }
    rewrite E. destruct (existsb (test n) (geoms s)); cbn [app map fst]; now rewrite IH.
Qed.
Definition trimmed (test : string -> list p2 -> bool) (np : string * polygon) : string * polygon :=
  (fst np, Polygon (exterior (snd np)) (filter (test (fst np)) (interiors (snd np)))).
Lemma filter_deep_spec test self :
  flat (filter_deep test self) = map (trimmed test) (filter (fun np => test (fst np) (exterior (snd np))) (flat self)) /\
  map fst (filter_deep test self) = map fst (filter (fun np => existsb (fun p => test (fst np) (exterior p)) (geoms (snd np))) self).
Proof.
  assert (K : forall n ps, flat_map (fun ppi => if test n (exterior ppi) then [Polygon (exterior ppi) (filter (test n) (interiors ppi))] else []) ps =
     map (fun p => Polygon (exterior p) (filter (test n) (interiors p))) (filter (fun p => test n (exterior p)) ps)).
  { intros n ps. induction ps as [|p ps IH]; [reflexivity|]. cbn [flat_map filter]. rewrite IH. destruct (test n (exterior p)); reflexivity. }
  split.
  - unfold flat, filter_deep. rewrite flat_map_flat_map, filter_flat_map. rewrite flat_map_concat_map, (flat_map_concat_map (fun x => filter _ _)), concat_map, map_map. f_equal. apply map_ext.
    intros [n s]. cbn [fst snd]. rewrite K, filter_map_comm. cbn [fst snd].
    transitivity (map (fun p => (n, p)) (map (fun p => Polygon (exterior p) (filter (test n) (interiors p))) (filter (fun p => test n (exterior p)) (geoms s)))).
    + destruct (map _ (filter _ (geoms s))); cbn [truthy flat_map geoms snd fst app]; [reflexivity|]. now rewrite app_nil_r.
    + rewrite !map_map. reflexivity.
  - unfold filter_deep. induction self as [|[n s] self IH]; [reflexivity|]. cbn [flat_map fst snd filter]. rewrite K.
    assert (truthy (map (fun p => Polygon (exterior p) (filter (test n) (interiors p))) (filter (fun p => test n (exterior p)) (geoms s))) = existsb (fun p => test n (exterior p)) (geoms s)) as E.
    { induction (geoms s) as [|p ps IHp]; [reflexivity|]. cbn. destruct (test n (exterior p)); [reflexivity|exact IHp]. }
    rewrite E. destruct (existsb _ (geoms s)); cbn [app map fst]; now rewrite IH.
Qed.

(** ** GDS *)
Lemma find_none_first l : forall s, find_structure None l s = match l with [] => s | (n, x) :: _ => Some x end.
Proof. intros s. destruct l as [|[n x] l]; reflexivity. Qed.
Lemma find_named m pre n x post : ~ In m (map fst pre) -> n = m -> forall s, find_structure (Some m) (pre ++ (n, x) :: post) s = Some x.
Proof.
  intros H ->. induction pre as [|[k y] pre IH]; intros s; cbn [app find_structure none_or].
  - now rewrite String.eqb_refl.
  - destruct (String.eqb_spec m k) as [->|D]; [exfalso; apply H; left; reflexivity|]. apply IH. intros K. apply H. right. exact K.
Qed.
Lemma find_absent m l : ~ In m (map fst l) -> forall s, find_structure (Some m) l s = match l with [] => s | _ => Some (snd (last l (""%string, []))) end.
Proof.
  induction l as [|[k y] l IH]; intros H s; [reflexivity|]. cbn [find_structure none_or].
  destruct (String.eqb_spec m k) as [->|D]; [exfalso; apply H; left; reflexivity|]. rewrite IH by (intros K; apply H; right; exact K).
  destruct l as [|z l]; reflexivity.
Qed.
Definition keep_poly ls ij := none_or (layer_in ij) (poly_layers ls).
Definition keep_gap ls ij := none_or (layer_in ij) (gap_layers ls).
Definition keep_route ls ij := (negb (keep_gap ls ij) && layer_in ij (route_layers ls))%bool.
Definition keep_bridge ls ij := (negb (keep_gap ls ij) && negb (layer_in ij (route_layers ls)) && layer_in ij (bridge_layers ls))%bool.
Definition keep_text ls (i : Z) := none_or (existsb (Z.eqb i)) (name_layers ls).
Definition ok_text ls (e : element) : bool := match e with Text ij [] _ => negb (keep_text ls (fst ij)) | _ => true end.
Definition polys_of ls unit scale stru := flat_map (fun e => match e with Boundary ij xy n => if keep_poly ls ij then [(n, to_length unit scale xy)] else [] | _ => [] end) stru.
Definition paths_of (keep : Z * Z -> bool) unit scale stru := flat_map (fun e => match e with Path ij xy => if (2 <=? length xy)%nat && keep ij then [to_length unit scale xy] else [] | _ => [] end) stru.
Definition texts_of ls unit scale stru := flat_map (fun e => match e with Text ij (p :: _) s => if keep_text ls (fst ij) then [(s, (fst p * unit / scale, snd p * unit / scale))] else [] | _ => [] end) stru.
Lemma sort_fold ls unit scale stru : forall d,
  fold_left (fun d e => bind d (fun d => sort_element ls unit scale d e)) stru (Ok d) =
  if forallb (ok_text ls) stru then
    Ok (GdsData (polys d ++ polys_of ls unit scale stru) (gaps d ++ paths_of (keep_gap ls) unit scale stru) (routes d ++ paths_of (keep_route ls) unit scale stru)
      (bridges d ++ paths_of (keep_bridge ls) unit scale stru) (labels d ++ texts_of ls unit scale stru))
  else Raise IndexError.
Proof.
  assert (Bad : forall l e, fold_left (fun d e => bind d (fun d => sort_element ls unit scale d e)) l (Raise e) = Raise e) by (intros l e; induction l; auto).
  induction stru as [|e stru IH]; intros d; cbn [fold_left forallb].
  - unfold polys_of, paths_of, texts_of. cbn [flat_map]. rewrite !app_nil_r. destruct d; reflexivity.
  - cbn [bind]. unfold polys_of, paths_of, texts_of. cbn [flat_map]. fold (polys_of ls unit scale stru). fold (texts_of ls unit scale stru).
    fold (paths_of (keep_gap ls) unit scale stru). fold (paths_of (keep_route ls) unit scale stru). fold (paths_of (keep_bridge ls) unit scale stru).
    destruct e as [ij xy n|ij xy|ij xy s|].
    + cbn [sort_element]. fold (to_length unit scale xy). fold (keep_poly ls ij). rewrite IH. cbn [ok_text andb app].
      destruct (forallb (ok_text ls) stru); [|reflexivity]. destruct (keep_poly ls ij); cbn [polys gaps routes bridges labels app]; [rewrite <- app_assoc|]; reflexivity.
    + cbn [sort_element]. fold (to_length unit scale xy). fold (keep_gap ls ij). rewrite IH. cbn [ok_text andb app].
      destruct (forallb (ok_text ls) stru); [|reflexivity]. unfold keep_route at 2, keep_bridge at 2.
      destruct (Nat.leb_spec 2 (length xy)) as [H|H]; destruct (Nat.ltb_spec (length xy) 2) as [H'|H']; try lia; cbn [andb app]; [|reflexivity].
      destruct (keep_gap ls ij); cbn [negb andb app polys gaps routes bridges labels]; [rewrite <- app_assoc; reflexivity|].
      destruct (layer_in ij (route_layers ls)); cbn [negb andb app polys gaps routes bridges labels]; [rewrite <- app_assoc; reflexivity|].
      destruct (layer_in ij (bridge_layers ls)); cbn [negb andb app polys gaps routes bridges labels]; [rewrite <- app_assoc; reflexivity|]. reflexivity.
    + cbn [sort_element]. fold (keep_text ls (fst ij)). destruct xy as [|p xy].
      * cbn [map ok_text]. destruct (keep_text ls (fst ij)); cbn [negb andb app]; [apply Bad|apply IH].
      * cbn [map ok_text andb]. destruct (keep_text ls (fst ij)); cbn [app]; rewrite IH; [|reflexivity].
        destruct (forallb (ok_text ls) stru); [|reflexivity]. cbn [polys gaps routes bridges labels]. rewrite <- app_assoc. reflexivity.
    + cbn [sort_element ok_text andb app]. apply IH.
Qed.
Lemma layer_in_iff ij l : layer_in ij l = true <-> In ij l.
Proof.
  unfold layer_in. rewrite existsb_exists. unfold same_layer. split.
  - intros ([a b] & H & E). apply andb_true_iff in E as [E1 E2]. apply Z.eqb_eq in E1. apply Z.eqb_eq in E2. destruct ij; cbn in *; subst; exact H.
  - intros H. exists ij. split; [exact H|]. now rewrite !Z.eqb_refl.
Qed.
Lemma keep_iff (o : option (list (Z * Z))) ij : none_or (layer_in ij) o = true <-> all_or o ij.
Proof. destruct o; cbn; [apply layer_in_iff|tauto]. Qed.
Lemma existsb_z i l : existsb (Z.eqb i) l = true <-> In i l.
Proof. rewrite existsb_exists. split; [intros (x & H & E); apply Z.eqb_eq in E; now subst|]. intros H. exists i. split; [exact H|apply Z.eqb_refl]. Qed.
Lemma sort_spec ls unit scale stru d :
  fold_left (fun d e => bind d (fun d => sort_element ls unit scale d e)) stru (Ok (GdsData [] [] [] [] [])) = Ok d ->
  boundaries (all_or (poly_layers ls)) unit scale stru (polys d) /\
  paths_on (all_or (gap_layers ls)) unit scale stru (gaps d) /\
  paths_on (fun ij => ~ all_or (gap_layers ls) ij /\ In ij (route_layers ls)) unit scale stru (routes d) /\
  paths_on (fun ij => ~ all_or (gap_layers ls) ij /\ ~ In ij (route_layers ls) /\ In ij (bridge_layers ls)) unit scale stru (bridges d) /\
  texts_on (all_or (name_layers ls)) unit scale stru (labels d).
Proof.
  rewrite sort_fold. destruct (forallb (ok_text ls) stru); [|discriminate]. intros [= <-]. cbn [polys gaps routes bridges labels app].
  split; [|split; [|split; [|split]]].
  - exists (keep_poly ls). split; [intros ij; apply keep_iff|reflexivity].
  - exists (keep_gap ls). split; [intros ij; apply keep_iff|reflexivity].
  - exists (keep_route ls). split; [|reflexivity]. intros ij. unfold keep_route. rewrite andb_true_iff, negb_true_iff, layer_in_iff, <- not_true_iff_false. unfold keep_gap. rewrite keep_iff. tauto.
  - exists (keep_bridge ls). split; [|reflexivity]. intros ij. unfold keep_bridge. rewrite !andb_true_iff, !negb_true_iff, <- !not_true_iff_false, !layer_in_iff. unfold keep_gap. rewrite keep_iff. tauto.
  - exists (keep_text ls). split; [|reflexivity]. intros i. unfold keep_text. destruct (name_layers ls); cbn; [apply existsb_z|tauto].
Qed.
Lemma sort_raises ls unit scale stru e :
  fold_left (fun d e => bind d (fun d => sort_element ls unit scale d e)) stru (Ok (GdsData [] [] [] [] [])) = Raise e ->
  e = IndexError /\ exists ij s, In (Text ij [] s) stru /\ all_or (name_layers ls) (fst ij).
Proof.
  rewrite sort_fold. destruct (forallb (ok_text ls) stru) eqn:E; [discriminate|]. intros [= <-]. split; [reflexivity|].
  induction stru as [|x stru IH]; [discriminate|]. cbn [forallb] in E. destruct (ok_text ls x) eqn:K.
  - destruct (IH E) as (ij & s & H & A). exists ij, s. split; [right; exact H|exact A].
  - destruct x as [| |ij [|] s|]; try discriminate. exists ij, s. split; [left; reflexivity|]. cbn [ok_text] in K. apply negb_false_iff in K. unfold keep_text in K. destruct (name_layers ls); cbn in *; [apply existsb_z, K|exact I].
Qed.

(** writing and reading *)
Lemma there_and_back unit scale xy : unit <> 0 -> scale <> 0 ->
  to_length unit scale (map (fun q : p2 => (fst q * scale / unit, snd q * scale / unit)) xy) = xy.
Proof.
  intros U S. unfold to_length. rewrite map_map. rewrite <- (map_id xy) at 2. apply map_ext. intros [x y]. cbn [fst snd]. f_equal; field; auto.
Qed.
Lemma round_trip valid is_empty scale unit pl gl tl name self lib : unit <> 0 -> scale <> 0 ->
  to_gds valid is_empty scale unit (Some pl) (Some gl) (Some tl) name self = Ok lib ->
  (forall np, In np (flat self) -> is_empty (snd np) = false -> exterior (snd np) <> []) ->
  let kept := filter (fun np => negb (is_empty (snd np))) (flat self) in
  exists d, gds_to_data lib scale None (Layers None None [] [] None) = Ok d /\
  polys d = map (fun np => (fst np, exterior (snd np))) kept /\
  gaps d = filter (fun r => 2 <=? length r)%nat (flat_map (fun np => exterior (snd np) :: interiors (snd np)) kept) /\
  labels d = map (fun np => (fst np, hd (0, 0) (exterior (snd np)))) (filter (fun np => negb (String.eqb (fst np) "")) kept) /\
  routes d = [] /\ bridges d = [].
Proof.
  intros U S H E. unfold to_gds in H. fold (flat self) in H. destruct (forallb _ (flat self)); [|discriminate]. cbn [negb] in H. cbv zeta in H. injection H as <-.
  set (kept := filter (fun np => negb (is_empty (snd np))) (flat self)). intros kept'. subst kept'.
  assert (Ek : forall np, In np kept -> exterior (snd np) <> []).
  { intros np Hn. apply filter_In in Hn as [Hn Hb]. apply negb_true_iff in Hb. apply E; assumption. }
  clearbody kept. unfold gds_to_data. cbn [structures physical_unit find_structure none_or].
  rewrite sort_fold. set (ls := Layers None None [] [] None). set (F := fun q : R * R => (fst q * scale / unit, snd q * scale / unit)).
  set (bodies := flat_map (fun np => gds_polygon scale unit (Some pl) (Some tl) (fst np) (snd np)) kept).
  set (lps := flat_map (fun np => exterior (snd np) :: interiors (snd np)) kept).
  assert (OK : forallb (ok_text ls) (bodies ++ map (fun loop => Path gl (map F loop)) lps) = true).
  { apply forallb_forall. intros x Hx. apply in_app_or in Hx as [Hx|Hx].
    - apply in_flat_map in Hx as (np & Hn & Hx). unfold gds_polygon in Hx. specialize (Ek np Hn). apply in_app_or in Hx as [Hx|[<-|[]]]; [|reflexivity].
      destruct (String.eqb (fst np) ""); [destruct Hx|]. destruct Hx as [<-|[]]. destruct (exterior (snd np)); [contradiction|]. reflexivity.
    - apply in_map_iff in Hx as (l & <- & _). reflexivity. }
  rewrite OK. eexists. split; [reflexivity|]. cbn [polys gaps labels routes bridges app].
  assert (PF : forall l, polys_of ls unit scale (map (fun loop => Path gl (map F loop)) l) = []) by (intros l; induction l; cbn; auto).
  assert (TF : forall l, texts_of ls unit scale (map (fun loop => Path gl (map F loop)) l) = []) by (intros l; induction l; cbn; auto).
  assert (NP : forall k, (forall x, k x = false) -> forall l, paths_of k unit scale l = []).
  { intros k Hk l. induction l as [|e l IH]; [reflexivity|]. unfold paths_of in *. cbn [flat_map]. rewrite IH. destruct e; try reflexivity. rewrite Hk, andb_false_r. reflexivity. }
  assert (app3 : forall k a b, paths_of k unit scale (a ++ b) = paths_of k unit scale a ++ paths_of k unit scale b) by (intros; unfold paths_of; apply flat_map_app).
  split; [|split; [|split; [|split]]].
  - unfold polys_of at 1. rewrite flat_map_app. fold (polys_of ls unit scale bodies). fold (polys_of ls unit scale (map (fun loop => Path gl (map F loop)) lps)). rewrite PF, app_nil_r.
    unfold bodies, polys_of. rewrite flat_map_flat_map. apply flat_map_single. intros np Hn. unfold gds_polygon. rewrite flat_map_app.
    destruct (String.eqb (fst np) ""); cbn [flat_map app keep_poly ls poly_layers none_or]; fold F; unfold F; rewrite there_and_back by assumption; reflexivity.
  - rewrite app3.
    assert (paths_of (keep_gap ls) unit scale bodies = []) as ->.
    { unfold bodies, paths_of. rewrite flat_map_flat_map. clear. induction kept as [|np kept IH]; [reflexivity|]. cbn [flat_map]. rewrite IH. unfold gds_polygon. rewrite flat_map_app. destruct (String.eqb (fst np) ""); reflexivity. }
    cbn [app]. clear -U S. induction lps as [|l lps IH]; [reflexivity|]. cbn [map filter].
    transitivity ((if (2 <=? length (map F l))%nat && true then [to_length unit scale (map F l)] else []) ++ paths_of (keep_gap ls) unit scale (map (fun loop => Path gl (map F loop)) lps)); [reflexivity|].
    rewrite IH, map_length, andb_true_r.
    unfold F. rewrite there_and_back by assumption. change (@length (R * R) l) with (@length p2 l). destruct (2 <=? @length p2 l)%nat; reflexivity.
  - unfold texts_of at 1. rewrite flat_map_app. fold (texts_of ls unit scale bodies). fold (texts_of ls unit scale (map (fun loop => Path gl (map F loop)) lps)). rewrite TF, app_nil_r.
    unfold bodies, texts_of. rewrite flat_map_flat_map. clear -U S Ek. induction kept as [|np kept IH]; [reflexivity|]. cbn [flat_map filter]. rewrite IH by (intros x Hx; apply Ek; right; exact Hx).
    unfold gds_polygon. rewrite flat_map_app. specialize (Ek np (or_introl eq_refl)). destruct (exterior (snd np)) as [|[x y] r] eqn:Er; [contradiction|].
    destruct (String.eqb (fst np) ""); cbn [flat_map app negb]; [reflexivity|]. cbn [map firstn keep_text ls name_layers none_or app]. f_equal. rewrite Er. cbn [hd]. do 2 f_equal; cbn [fst snd]; field; auto.
  - apply NP. intros x. reflexivity.
  - apply NP. intros x. reflexivity.
Qed.

(** ** square_pads *)
Definition side (n : nat) (step edge : R) : list p2 :=
  map (fun k => (- (edge / 2 - step / 2), ((INR n - 1) / 2 - INR k) * step)) (seq 0 n).
Lemma pads_eq step edge (odd : bool) sc (n : nat) : step <> 0 -> (-4 <= sc <= 4)%Z ->
  (let n0 := truncate (edge / step) in if odd then n0 + n0 mod 2 + 1 else n0)%Z = Z.of_nat n ->
  exists a b c d, square_pads step edge odd sc = Ok (map (quarters a) (side n step edge) ++ map (quarters b) (side n step edge) ++
    map (quarters c) (side n step edge) ++ map (quarters d) (side n step edge)) /\
  Z.of_nat a = (sc mod 4)%Z /\ Z.of_nat b = ((1 + sc) mod 4)%Z /\ Z.of_nat c = ((2 + sc) mod 4)%Z /\ Z.of_nat d = ((3 + sc) mod 4)%Z.
Proof.
  intros S C N. unfold square_pads. destruct (Req_EM_T step 0) as [|_]; [contradiction|]. cbv zeta in N |- *. rewrite N. clear N.
  destruct (Z.ltb_spec (Z.of_nat n) 0) as [|_]; [lia|]. rewrite Nat2Z.id.
  set (p := map _ (seq 0 n)). set (q := edge / 2 - step / 2).
  assert (E0 : map (fun x => (- q, - x)) p = map (quarters 0) (side n step edge)).
  { unfold p, side. rewrite !map_map. apply map_ext. intros k. cbn [quarters]. unfold q. rewrite <- INR_IZR_INZ. f_equal; field. }
  assert (E1 : map (fun x => (x, - q)) p = map (quarters 1) (side n step edge)).
  { unfold p, side. rewrite !map_map. apply map_ext. intros k. cbn [quarters]. unfold quarter, q. cbn [fst snd]. rewrite <- INR_IZR_INZ. f_equal; field. }
  assert (E2 : map (fun x => (q, x)) p = map (quarters 2) (side n step edge)).
  { unfold p, side. rewrite !map_map. apply map_ext. intros k. cbn [quarters]. unfold quarter, q. cbn [fst snd]. rewrite <- INR_IZR_INZ. f_equal; field. }
  assert (E3 : map (fun x => (- x, q)) p = map (quarters 3) (side n step edge)).
  { unfold p, side. rewrite !map_map. apply map_ext. intros k. cbn [quarters]. unfold quarter, q. cbn [fst snd]. rewrite <- INR_IZR_INZ. f_equal; field. }
  rewrite E0, E1, E2, E3. clear E0 E1 E2 E3 p q. set (L := side n step edge).
  assert (H : (sc = -4 \/ sc = -3 \/ sc = -2 \/ sc = -1 \/ sc = 0 \/ sc = 1 \/ sc = 2 \/ sc = 3 \/ sc = 4)%Z) by lia.
  destruct H as [->|[->|[->|[->|[->|[->|[->|[->| ->]]]]]]]].
  1, 5, 9: exists 0%nat, 1%nat, 2%nat, 3%nat; split; [|repeat split; reflexivity]; transitivity (Ok (concat [map (quarters 0) L; map (quarters 1) L; map (quarters 2) L; map (quarters 3) L])); [reflexivity|cbn [concat]; rewrite app_nil_r; reflexivity].
  1, 4: exists 1%nat, 2%nat, 3%nat, 0%nat; split; [|repeat split; reflexivity]; transitivity (Ok (concat [map (quarters 1) L; map (quarters 2) L; map (quarters 3) L; map (quarters 0) L])); [reflexivity|cbn [concat]; rewrite app_nil_r; reflexivity].
  1, 3: exists 2%nat, 3%nat, 0%nat, 1%nat; split; [|repeat split; reflexivity]; transitivity (Ok (concat [map (quarters 2) L; map (quarters 3) L; map (quarters 0) L; map (quarters 1) L])); [reflexivity|cbn [concat]; rewrite app_nil_r; reflexivity].
  all: exists 3%nat, 0%nat, 1%nat, 2%nat; split; [|repeat split; reflexivity]; transitivity (Ok (concat [map (quarters 3) L; map (quarters 0) L; map (quarters 1) L; map (quarters 2) L])); [reflexivity|cbn [concat]; rewrite app_nil_r; reflexivity].
Qed.
Lemma truncate_pos x : 0 <= x -> exists n, truncate x = Z.of_nat n /\ INR n <= x < INR n + 1.
Proof.
  intros H. unfold truncate. destruct (Rlt_dec x 0) as [|_]; [lra|]. destruct (base_Int_part x) as [A B].
  assert (0 <= Int_part x)%Z as P.
  { apply Z.lt_succ_r. apply lt_IZR. rewrite succ_IZR. lra. }
  exists (Z.to_nat (Int_part x)). rewrite Z2Nat.id by exact P. split; [reflexivity|]. rewrite INR_IZR_INZ, Z2Nat.id by exact P. lra.
Qed.
Lemma side_length n step edge : length (side n step edge) = n.
Proof. unfold side. now rewrite map_length, seq_length. Qed.
Lemma side_nth n step edge a k : (k < n)%nat -> nth_error (map (quarters a) (side n step edge)) k = Some (quarters a (- (edge / 2 - step / 2), ((INR n - 1) / 2 - INR k) * step)).
Proof.
  intros H. unfold side. rewrite map_map. rewrite nth_error_map, (nth_error_nth' _ 0%nat) by now rewrite seq_length. cbn [option_map]. now rewrite seq_nth by exact H.
Qed.
Lemma pads_nth n step edge a b c d : let l := map (quarters a) (side n step edge) ++ map (quarters b) (side n step edge) ++
    map (quarters c) (side n step edge) ++ map (quarters d) (side n step edge) in
  length l = (4 * n)%nat /\ forall s k, (s < 4)%nat -> (k < n)%nat ->
  nth_error l (s * n + k) = Some (quarters (nth s [a; b; c; d] 0%nat) (- (edge / 2 - step / 2), ((INR n - 1) / 2 - INR k) * step)).
Proof.
  cbv zeta. split; [rewrite !app_length, !map_length, side_length; lia|]. intros s k Hs Hk.
  assert (Len : forall a, length (map (quarters a) (side n step edge)) = n) by (intros; now rewrite map_length, side_length).
  assert (s = 0 \/ s = 1 \/ s = 2 \/ s = 3)%nat as H by lia. destruct H as [->|[->|[->| ->]]].
  - rewrite nth_error_app1 by (rewrite Len; lia). apply side_nth. exact Hk.
  - rewrite nth_error_app2 by (rewrite Len; lia). rewrite Len, nth_error_app1 by (rewrite Len; lia). replace (1 * n + k - n)%nat with k by lia. apply side_nth, Hk.
  - do 2 (rewrite nth_error_app2 by (rewrite !Len; lia)). rewrite !Len, nth_error_app1 by (rewrite Len; lia). replace (2 * n + k - n - n)%nat with k by lia. apply side_nth, Hk.
  - do 3 (rewrite nth_error_app2 by (rewrite !Len; lia)). rewrite !Len. replace (3 * n + k - n - n - n)%nat with k by lia. apply side_nth, Hk.
Qed.
Lemma square_pads_spec step edge (odd : bool) sc : 0 < step -> 0 <= edge -> (-4 <= sc <= 4)%Z ->
  exists pads n m, square_pads step edge odd sc = Ok pads /\ INR m * step <= edge < (INR m + 1) * step /\
  n = (if odd then if Nat.even m then m + 1 else m + 2 else m)%nat /\ length pads = (4 * n)%nat /\
  forall s k, (s < 4)%nat -> (k < n)%nat -> exists a, Z.of_nat a = ((Z.of_nat s + sc) mod 4)%Z /\
    nth_error pads (s * n + k) = Some (quarters a (- (edge / 2 - step / 2), ((INR n - 1) / 2 - INR k) * step)).
Proof.
  intros S E C. destruct (truncate_pos (edge / step)) as (m & Hm & Hr); [apply Rmult_le_pos; [exact E|left; now apply Rinv_0_lt_compat]|].
  set (n := (if odd then if Nat.even m then m + 1 else m + 2 else m)%nat).
  assert (N : (let n0 := truncate (edge / step) in if odd then n0 + n0 mod 2 + 1 else n0)%Z = Z.of_nat n).
  { cbv zeta. rewrite Hm. unfold n. destruct odd; [|reflexivity]. destruct (Nat.even m) eqn:P.
    - apply Nat.even_spec in P as [j ->]. rewrite !Nat2Z.inj_add, Nat2Z.inj_mul. change (Z.of_nat 2) with 2%Z. rewrite Z.mul_comm, Z_mod_mult. lia.
    - assert (Nat.odd m = true) as P' by now rewrite <- Nat.negb_even, P. apply Nat.odd_spec in P' as [j ->].
      rewrite !Nat2Z.inj_add, Nat2Z.inj_mul. change (Z.of_nat 2) with 2%Z. change (Z.of_nat 1) with 1%Z. rewrite (Z.add_comm (2 * Z.of_nat j) 1), (Z.mul_comm 2), Z_mod_plus_full. change (1 mod 2)%Z with 1%Z. lia. }
  destruct (pads_eq step edge odd sc n ltac:(lra) C N) as (a & b & c & d & Eq & A & B & C' & D).
  destruct (pads_nth n step edge a b c d) as [L K]. eexists. exists n, m. split; [exact Eq|]. split.
  { destruct Hr as [H1 H2]. apply (Rmult_le_compat_r step) in H1; [|lra]. apply (Rmult_lt_compat_r step) in H2; [|exact S]. unfold Rdiv in H1, H2.
    rewrite Rmult_assoc, Rinv_l, Rmult_1_r in H1 by lra. rewrite Rmult_assoc, Rinv_l, Rmult_1_r in H2 by lra. split; assumption. }
  split; [reflexivity|]. split; [exact L|]. intros s k Hs Hk. exists (nth s [a; b; c; d] 0%nat). split; [|apply K; assumption].
  assert (s = 0 \/ s = 1 \/ s = 2 \/ s = 3)%nat as H by lia. destruct H as [->|[->|[->| ->]]]; assumption.
Qed.
Lemma quarters_coords a x y : Rmax (Rabs (fst (quarters a (x, y)))) (Rabs (snd (quarters a (x, y)))) = Rmax (Rabs x) (Rabs y).
Proof.
  induction a as [|a IH]; [reflexivity|]. rewrite <- IH. cbn [quarters]. unfold quarter. cbn [fst snd]. rewrite Rabs_Ropp. apply Rmax_comm.
Qed.
Lemma square_pads_inside step edge sc : 0 < step -> step <= edge -> (-4 <= sc <= 4)%Z ->
  exists pads, square_pads step edge false sc = Ok pads /\ forall p, In p pads -> Rmax (Rabs (fst p)) (Rabs (snd p)) = edge / 2 - step / 2.
Proof.
  intros S E C. destruct (square_pads_spec step edge false sc S ltac:(lra) C) as (pads & n & m & Eq & Hm & -> & L & K). exists pads. split; [exact Eq|].
  intros p Hp. apply In_nth_error in Hp as [i Hi]. assert (i < 4 * m)%nat as Li by (rewrite <- L; apply nth_error_Some; congruence).
  destruct (Nat.eq_dec m 0) as [->|Hm0]; [lia|].
  destruct (K (i / m)%nat (i mod m)%nat) as (a & _ & Ha).
  { apply Nat.div_lt_upper_bound; lia. } { apply Nat.mod_upper_bound. exact Hm0. }
  assert (i mod m < m)%nat as Hk by now apply Nat.mod_upper_bound.
  rewrite Nat.mul_comm, <- Nat.div_mod in Ha by exact Hm0. rewrite Hi in Ha. injection Ha as ->. rewrite quarters_coords, Rabs_Ropp, (Rabs_pos_eq (edge / 2 - step / 2)) by lra.
  apply Rmax_left. set (k := (i mod m)%nat) in *. assert (0 <= INR k) by apply pos_INR. assert (INR k <= INR m - 1) as Hk'. { apply lt_INR in Hk. apply INR_lt in Hk. assert (k + 1 <= m)%nat as Q by lia. apply le_INR in Q. rewrite plus_INR in Q. cbn in Q. lra. }
  apply Rabs_le. split; nra.
Qed.
Lemma square_pads_odd_outside step edge sc : 0 < step -> 0 <= edge -> (-4 <= sc <= 4)%Z ->
  exists pads p, square_pads step edge true sc = Ok pads /\ In p pads /\ edge / 2 - step / 2 < Rmax (Rabs (fst p)) (Rabs (snd p)).
Proof.
  intros S E C. destruct (square_pads_spec step edge true sc S E C) as (pads & n & m & Eq & Hm & Hn & L & K).
  assert (m + 1 <= n)%nat as Hmn by (subst n; destruct (Nat.even m); lia).
  destruct (K 0%nat 0%nat) as (a & _ & Ha); [lia|lia|]. exists pads. eexists. split; [exact Eq|]. split; [apply nth_error_In in Ha; exact Ha|].
  rewrite quarters_coords. apply le_INR in Hmn. rewrite plus_INR in Hmn. cbn in Hmn. change (INR 0) with 0. assert (0 <= INR m) by apply pos_INR.
  apply Rlt_le_trans with (Rabs (((INR n - 1) / 2 - 0) * step)); [|apply Rmax_r]. rewrite Rabs_pos_eq by nra. nra.
Qed.
(** ** maps *)
Lemma validate_spec {G} (valid : G -> bool) self :
  (validate valid self = Ok tt <-> forall n g, In (n, g) self -> valid g = true) /\
  (validate valid self <> Ok tt -> validate valid self = Raise ValueError).
Proof.
  induction self as [|[n g] self [A B]]; cbn [validate snd].
  - split; [split; [intros _ ? ? []|reflexivity]|congruence].
  - destruct (valid g) eqn:E.
    + split; [|exact B]. rewrite A. split; [|intros H m h K; apply (H m h); right; exact K]. intros H m h [[= <- <-]|K]; [exact E|exact (H m h K)].
    + split; [|reflexivity]. split; [discriminate|]. intros H. rewrite (H n g) in E by (left; reflexivity). discriminate.
Qed.
Lemma gaps_union_spec {G X} (sh : shapely G) (pts : G -> X -> Prop) boundary members self : lawful sh pts ->
  forall x, pts (gaps_union sh boundary members self) x <-> exists n g m, In (n, g) self /\ In m (members g) /\ pts (boundary m) x.
Proof.
  intros L x. unfold gaps_union.
  assert (K : forall l g, pts (fold_left (union sh) l g) x <-> pts g x \/ exists h, In h l /\ pts h x).
  { induction l as [|h l IH]; intros g; cbn [fold_left]; [split; [auto|intros [H|(h & [] & _)]; exact H]|]. rewrite IH, (l_union sh pts L). split.
    - intros [[H|H]|(k & H & P)]; [auto|right; exists h; split; [left; reflexivity|exact H]|right; exists k; split; [right; exact H|exact P]].
    - intros [H|(k & [->|H] & P)]; [auto|auto|right; exists k; auto]. }
  rewrite K. split.
  - intros [H|(h & H & P)]; [destruct (l_empty sh pts L x H)|]. apply in_flat_map in H as ([n g] & H & M). apply in_map_iff in M as (m & <- & M). exists n, g, m. auto.
  - intros (n & g & m & H & M & P). right. exists (boundary m). split; [|exact P]. apply in_flat_map. exists (n, g). split; [exact H|]. apply in_map. exact M.
Qed.

Lemma to_system_spec ccw ok self :
  (forall n p, In (n, p) (flat self) -> ok p = true -> proper_rings ccw p) ->
  Forall2 (fun e np => ename e = fst np /\ exists groups h n, egeom e = EPolygon (concat groups) h n /\
      Forall2 (fun g p => (ok p = false -> g = []) /\ (ok p = true -> paths_for p g)) groups (geoms (snd np)))
    (to_system ccw ok self) self.
Proof.
  intros H. unfold to_system. unfold flat in H. induction self as [|[n s] self IH]; cbn [map]; constructor.
  - split; [reflexivity|]. exists (map (to_paths ccw ok) (geoms s)). do 2 eexists. cbn [egeom fst snd]. rewrite <- flat_map_concat_map. split; [reflexivity|].
    assert (K : forall p, In p (geoms s) -> ok p = true -> proper_rings ccw p).
    { intros p Hp. apply (H n p). cbn [flat_map]. apply in_or_app. left. cbn [fst snd]. apply in_map_iff. exists p. auto. }
    clear -K. induction (geoms s) as [|p ps IH]; cbn [map]; constructor.
    + split; intros O; [unfold to_paths; now rewrite O|]. apply to_paths_spec; [exact O|]. apply K; [left; reflexivity|exact O].
    + apply IH. intros q Hq. apply K. right. exact Hq.
  - apply IH. intros m p Hp. apply (H m p). cbn [flat_map]. apply in_or_app. right. exact Hp.
Qed.
Lemma gds_selected lib scale name ls stru : selected name (structures lib) stru ->
  gds_to_data lib scale name ls = fold_left (fun d e => bind d (fun d => sort_element ls (physical_unit lib) scale d e)) stru (Ok (GdsData [] [] [] [] [])).
Proof.
  intros (pre & n & post & E & C). unfold gds_to_data. rewrite E. destruct name as [m|].
  - destruct C as [-> C]. now rewrite (find_named m pre m stru post C eq_refl).
  - subst pre. reflexivity.
Qed.
Lemma gds_spec lib scale name ls stru d : selected name (structures lib) stru -> gds_to_data lib scale name ls = Ok d ->
  boundaries (all_or (poly_layers ls)) (physical_unit lib) scale stru (polys d) /\
  paths_on (all_or (gap_layers ls)) (physical_unit lib) scale stru (gaps d) /\
  paths_on (fun ij => ~ all_or (gap_layers ls) ij /\ In ij (route_layers ls)) (physical_unit lib) scale stru (routes d) /\
  paths_on (fun ij => ~ all_or (gap_layers ls) ij /\ ~ In ij (route_layers ls) /\ In ij (bridge_layers ls)) (physical_unit lib) scale stru (bridges d) /\
  texts_on (all_or (name_layers ls)) (physical_unit lib) scale stru (labels d).
Proof. intros S. rewrite (gds_selected _ _ _ _ _ S). apply sort_spec. Qed.
Lemma gds_total lib scale name ls stru : selected name (structures lib) stru ->
  (forall ij s, In (Text ij [] s) stru -> ~ all_or (name_layers ls) (fst ij)) -> exists d, gds_to_data lib scale name ls = Ok d.
Proof.
  intros S H. rewrite (gds_selected _ _ _ _ _ S). destruct (fold_left _ stru _) as [d|e] eqn:E; [eauto|]. apply sort_raises in E as (_ & ij & s & K & A). destruct (H ij s K A).
Qed.
Lemma gds_missing lib scale m ls : ~ In m (map fst (structures lib)) ->
  gds_to_data lib scale (Some m) ls =
  match structures lib with
  | [] => Raise UnboundLocalError
  | l => gds_to_data (Library (physical_unit lib) [last l (""%string, [])]) scale None ls
  end.
Proof.
  intros H. unfold gds_to_data. rewrite (find_absent m _ H). destruct (structures lib) as [|x l]; [reflexivity|]. cbn [structures find_structure].
  destruct (last (x :: l) (""%string, [])) as [n s]. reflexivity.
Qed.
Lemma gds_routes_lost lib scale name ls stru d : selected name (structures lib) stru -> gds_to_data lib scale name ls = Ok d ->
  gap_layers ls = None -> routes d = [] /\ bridges d = [].
Proof.
  intros S E G. destruct (gds_spec _ _ _ _ _ _ S E) as (_ & _ & (k & Hk & ->) & (k' & Hk' & ->) & _). rewrite G in *. cbn [all_or] in *.
  assert (K : forall f : Z * Z -> bool, (forall x, f x = false) -> flat_map (fun e => match e with Path ij xy => if (2 <=? length xy)%nat && f ij then [to_length (physical_unit lib) scale xy] else [] | _ => [] end) stru = []).
  { intros f Hf. clear -Hf. induction stru as [|e l IH]; [reflexivity|]. cbn [flat_map]. rewrite IH. destruct e; cbn [app]; rewrite ?Hf, ?andb_false_r; reflexivity. }
  split; apply K; intros x; [destruct (k x) eqn:E'; [apply Hk in E'; tauto|reflexivity]|destruct (k' x) eqn:E'; [apply Hk' in E'; tauto|reflexivity]].
Qed.
Lemma maps_names {G} (valid : G -> bool) (buffer : G -> R -> G) (uu : list G -> G) (members : G -> list G) simpl_ sh square
    (self : list (string * G)) gap tol (pt : bool) g edge :
  map fst (add_gaps valid buffer gap self) = map fst self /\ map fst (unify uu members self) = map fst self /\
  map fst (simplify valid buffer simpl_ tol pt self) = map fst self /\ map fst (restrict sh g self) = map fst self /\
  map fst (within sh square edge self) = map fst self.
Proof.
  unfold add_gaps, unify, simplify, within, restrict, add_gaps. destruct (Req_EM_T tol 0); rewrite !map_map; auto 10.
Qed.
Lemma restrict_points {G X} (sh : shapely G) (pts : G -> X -> Prop) g self : lawful sh pts ->
  Forall2 (fun a b => forall x, pts (snd a) x <-> pts (snd b) x /\ pts g x) (restrict sh g self) self.
Proof.
  intros L. unfold restrict. induction self as [|a self IH]; constructor; [|exact IH]. intros x. cbn [snd]. apply (l_inter sh pts L).
Qed.
Lemma add_gaps_valid {G} (valid : G -> bool) buffer gap (self : list (string * G)) :
  Forall2 (fun a b => snd a = buffer (snd b) (- gap / 2) /\ valid (snd a) = true \/ snd a = snd b /\ valid (buffer (snd b) (- gap / 2)) = false) (add_gaps valid buffer gap self) self.
Proof.
  unfold add_gaps. induction self as [|a self IH]; constructor; [|exact IH]. cbn [snd]. destruct (valid (buffer (snd a) (- gap / 2))) eqn:E; auto.
Qed.

Lemma within_points {G} (sh : shapely G) (pts : G -> p2 -> Prop) polygon edge self : lawful sh pts ->
  (forall a b c d, a <= b -> c <= d -> forall x y, pts (polygon [(b, d); (a, d); (a, c); (b, c)]) (x, y) <-> a <= x <= b /\ c <= y <= d) -> 0 <= edge ->
  Forall2 (fun a b => fst a = fst b /\ forall x y, pts (snd a) (x, y) <-> pts (snd b) (x, y) /\ Rabs x <= edge / 2 /\ Rabs y <= edge / 2) (within sh polygon edge self) self.
Proof.
  intros L R E. unfold within, restrict. cbn zeta. induction self as [|a self IH]; constructor; [|exact IH]. split; [reflexivity|]. intros x y. cbn [snd].
  rewrite (l_inter sh pts L), R by lra.
  split; intros (P & K); (split; [exact P|]).
  - split; apply Rabs_le; tauto.
  - destruct K as [X Y]. revert X Y. unfold Rabs. destruct (Rcase_abs x), (Rcase_abs y); intros; lra.
Qed.
Lemma simplify_near {G X} (valid : G -> bool) buffer (simpl_ : G -> R -> bool -> G) tol preserve (pts : G -> X -> Prop) (near : R -> X -> X -> Prop) (self : list (string * G)) :
  (forall g t b x, pts (simpl_ g t b) x -> exists y, pts g y /\ near t x y) -> tol <> 0 ->
  Forall2 (fun a b => fst a = fst b /\ snd a = simpl_ (snd b) tol preserve /\ forall x, pts (snd a) x -> exists y, pts (snd b) y /\ near tol x y)
    (simplify valid buffer simpl_ tol preserve self) self.
Proof.
  intros N T. unfold simplify. destruct (Req_EM_T tol 0); [contradiction|]. induction self as [|a self IH]; constructor; [|exact IH]. cbn [fst snd].
  split; [reflexivity|]. split; [reflexivity|]. intros x. apply N.
Qed.
Lemma unify_points {G X} (uu : list G -> G) (members : G -> list G) (pts : G -> X -> Prop) (self : list (string * G)) :
  (forall l x, pts (uu l) x <-> exists g, In g l /\ pts g x) -> (forall g x, pts g x <-> exists m, In m (members g) /\ pts m x) ->
  Forall2 (fun a b => fst a = fst b /\ forall x, pts (snd a) x <-> pts (snd b) x) (unify uu members self) self.
Proof.
  intros U M. unfold unify. induction self as [|a self IH]; constructor; [|exact IH]. cbn [fst snd]. split; [reflexivity|]. intros x. now rewrite U, M.
Qed.

Lemma from_data_valid {G} (sh : shapely G) (dr : drawing G) polys gaps routes bridges names edge buffer :
  (forall g, is_valid sh g = true) -> exists out, from_data sh dr polys gaps routes bridges names edge buffer = Ok out.
Proof.
  intros V. unfold from_data. cbn zeta.
  assert (A : forall field0 l st, exists st', add_polys sh dr field0 l st = Ok st').
  { intros field0 l. unfold add_polys.
    assert (B : forall ps (n : string) st, exists st', fold_left (fun st poly =>
        bind st (fun st => if is_valid sh poly then let poly := inter sh (oriented dr poly) field0 in Ok (fst st ++ [(n, poly)], diff sh (snd st) poly) else Raise AssertionError)) ps (Ok st) = Ok st').
    { induction ps as [|q ps IH]; intros n st; cbn [fold_left]; [now exists st|]. cbn [bind]. rewrite V. apply IH. }
    induction l as [|np l IH]; intros st; cbn [fold_left]; [now exists st|]. set (F := fold_left _ (polygonize dr (snd np)) (Ok st)). assert (HF : exists st', F = Ok st') by exact (B (polygonize dr (snd np)) (fst np) st). destruct HF as [st' HF]. rewrite HF. apply IH. }
  match goal with |- context [add_polys sh dr ?a ?b ?c] => destruct (A a b c) as [[fr fi] ->] end. cbn [bind]. rewrite V. cbn [negb]. eexists. reflexivity.
Qed.
Lemma truncate_neg x : x < 0 -> exists k : nat, truncate x = (- Z.of_nat k)%Z /\ INR k <= - x < INR k + 1.
Proof.
  intros H. unfold truncate. destruct (Rlt_dec x 0) as [_|N]; [|lra]. destruct (base_Int_part (- x)) as [A B].
  assert (P : (0 <= Int_part (- x))%Z).
  { apply Z.lt_succ_r, lt_IZR. rewrite succ_IZR. lra. }
  exists (Z.to_nat (Int_part (- x))). rewrite Z2Nat.id by exact P. split; [reflexivity|]. rewrite INR_IZR_INZ, Z2Nat.id by exact P. lra.
Qed.
Lemma square_pads_opposite step edge (odd : bool) sc : step * edge < 0 ->
  ((exists pads, square_pads step edge odd sc = Ok pads) <-> Rabs edge < (if odd then 2 else 1) * Rabs step) /\
  (square_pads step edge odd sc = Raise AssertionError <-> (if odd then 2 else 1) * Rabs step <= Rabs edge).
Proof.
  intros H. assert (S : step <> 0) by (intros ->; lra). assert (S' : 0 < Rabs step) by (apply Rabs_pos_lt; exact S).
  assert (Q : edge / step < 0).
  { replace (edge / step) with ((step * edge) * / (step * step)) by (field; exact S). assert (0 < / (step * step)) by (apply Rinv_0_lt_compat; nra). nra. }
  assert (E : Rabs edge = - (edge / step) * Rabs step).
  { rewrite <- (Rabs_left (edge / step)) by exact Q. rewrite <- Rabs_mult. f_equal. field. exact S. }
  destruct (truncate_neg _ Q) as (k & T & B). unfold square_pads. destruct (Req_EM_T step 0) as [|_]; [contradiction|]. cbv zeta. rewrite T.
  set (n := if odd then (- Z.of_nat k + (- Z.of_nat k) mod 2 + 1)%Z else (- Z.of_nat k)%Z).
  assert (N : (n <? 0)%Z = true <-> (if odd then 2 else 1) * Rabs step <= Rabs edge).
  { rewrite E, Z.ltb_lt.
    assert (W : (n < 0)%Z <-> ((if odd then 2 else 1) <= Z.of_nat k)%Z).
    { unfold n. destruct odd; [|lia]. assert (M := Z.mod_pos_bound (- Z.of_nat k) 2 ltac:(lia)). split; [lia|]. intros L.
      destruct (Z.eq_dec (Z.of_nat k) 2) as [e|e]; [rewrite e; reflexivity|lia]. }
    rewrite W. clear W. rewrite INR_IZR_INZ in B. destruct odd.
    - split; intros L; [assert (2 <= IZR (Z.of_nat k)) by (apply IZR_le; exact L); nra|].
      apply Z.lt_succ_r. apply lt_IZR. rewrite succ_IZR. assert (2 <= - (edge / step)) by nra. lra.
    - split; intros L; [assert (1 <= IZR (Z.of_nat k)) by (apply IZR_le; exact L); nra|].
      apply Z.lt_succ_r. apply lt_IZR. rewrite succ_IZR. assert (1 <= - (edge / step)) by nra. lra. }
  destruct (n <? 0)%Z.
  - assert (N1 := proj1 N eq_refl). split; split; intros X; try (destruct X; discriminate); try exact N1; try reflexivity. exfalso; lra.
  - assert (N2 : ~ ((if odd then 2 else 1) * Rabs step <= Rabs edge)) by (intros X; apply N in X; discriminate). split; split; intros X; try discriminate.
    + lra.
    + eexists; reflexivity.
    + exfalso; lra.
Qed.
