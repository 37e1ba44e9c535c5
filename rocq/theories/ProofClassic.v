From Verif Require Import Base ModelUtils ModelField ModelCons ModelClassic SpecTensor SpecField SpecCons SpecClassic.
From Verif Require ProofCons ProofSys.
Open Scope R_scope.
Notation length := List.length.

Lemma at_index_py n i k : py_index (seq 0 n) i = Ok k <-> at_index n i k.
Proof.
  unfold py_index, at_index. rewrite seq_length.
  assert (N : forall z, (0 <= z)%Z -> nth_error (seq 0 n) (Z.to_nat z) =
     if (z <? Z.of_nat n)%Z then Some (Z.to_nat z) else None).
  { intros z Hz. destruct (Z.ltb_spec z (Z.of_nat n)).
    - rewrite nth_error_nth' with (d := 0%nat) by (rewrite seq_length; lia). rewrite seq_nth by lia. f_equal; lia.
    - apply nth_error_None. rewrite seq_length. lia. }
  destruct (Z.ltb_spec i 0) as [Hi|Hi].
  - destruct (Z.ltb_spec (i + Z.of_nat n) 0) as [Hj|Hj].
    + split; [discriminate|]. intros [H1 [H2|H2]]; lia.
    + rewrite N by lia. destruct (Z.ltb_spec (i + Z.of_nat n) (Z.of_nat n)); [|lia]. split.
      * intros [= <-]. lia.
      * intros [H1 [H2|H2]]; f_equal; lia.
  - destruct (Z.ltb_spec i 0); [lia|]. rewrite N by lia. destruct (Z.ltb_spec i (Z.of_nat n)).
    + split; [intros [= <-]; lia|]. intros [H1 [H2|H2]]; f_equal; lia.
    + split; [discriminate|]. intros [H1 [H2|H2]]; lia.
Qed.
Lemma range_py n i : (- Z.of_nat n <= i < Z.of_nat n)%Z -> exists k, at_index n i k.
Proof.
  intros H. destruct (Z.ltb_spec i 0).
  - exists (Z.to_nat (i + Z.of_nat n)). unfold at_index. lia.
  - exists (Z.to_nat i). unfold at_index. lia.
Qed.
Lemma at_fun n i k k' : at_index n i k -> at_index n i k' -> k = k'.
Proof. unfold at_index. lia. Qed.

Lemma yields_app equal a b x y : yields equal a = Ok x -> yields equal b = Ok y -> yields equal (a ++ b) = Ok (x ++ y).
Proof.
  revert x. induction a as [|v a IH]; cbn [yields app]; intros x Ha Hb.
  - injection Ha as <-. exact Hb.
  - destruct (if equal then _ else _) as [u|]; cbn [bind] in *; [|discriminate].
    destruct (yields equal a) as [w|] eqn:E; cbn [bind] in *; [|discriminate]. injection Ha as <-.
    rewrite (IH w eq_refl Hb). cbn [bind]. rewrite app_assoc. reflexivity.
Qed.
Lemma le0_says V v : item_holds V (le0 v) <-> forall x, In x (val v V) -> x <= 0.
Proof.
  destruct v as [f|y]; cbn [le0 item_holds val].
  - unfold satisfies. reflexivity.
  - destruct (Rle_dec y 0) as [r|r]; split; intros H.
    + intros x [<-|[]]. exact r.
    + reflexivity.
    + discriminate.
    + destruct r. apply H. left. reflexivity.
Qed.
Lemma ge0_says V v : is_affine v -> exists i, ge0 v = Ok i /\ (item_holds V i <-> forall x, In x (val v V) -> 0 <= x).
Proof.
  destruct v as [f|y]; cbn [ge0 is_affine val]; intros A.
  - rewrite A. eexists. split; [reflexivity|]. cbn [item_holds]. unfold satisfies. reflexivity.
  - eexists. split; [reflexivity|]. cbn [item_holds]. destruct (Rle_dec 0 y) as [r|r]; split; intros H.
    + intros x [<-|[]]. exact r.
    + reflexivity.
    + discriminate.
    + destruct r. apply H. left. reflexivity.
Qed.
Lemma yields_says equal vs : (equal = true -> Forall is_affine vs) -> exists items, yields equal vs = Ok items /\
  forall V, Forall (item_holds V) items <-> forall v x, In v vs -> In x (val v V) -> says equal x.
Proof.
  induction vs as [|v vs IH]; intros A.
  - exists []. split; [reflexivity|]. intros V. split; [intros _ v x []|constructor].
  - destruct IH as (its & E & IH); [intros Q; specialize (A Q); inversion A; assumption|].
    cbn [yields]. destruct equal.
    + destruct (ge0 v) as [g|ex] eqn:Eg.
      2:{ destruct (ge0_says [] v) as (i & Ei & _); [specialize (A eq_refl); inversion A; assumption|congruence]. }
      cbn [bind]. rewrite E. cbn [bind app]. eexists. split; [reflexivity|]. intros V.
      destruct (ge0_says V v) as (i & Ei & Hi); [specialize (A eq_refl); inversion A; assumption|].
      rewrite Eg in Ei. injection Ei as <-.
      split.
      * intros F. inversion F as [|? ? F1 F2]; subst. inversion F2 as [|? ? F3 F4]; subst.
        intros w x [<-|Hw] Hx.
        -- apply (proj1 (le0_says V v)) with (x := x) in F1; [|exact Hx].
           apply (proj1 Hi) with (x := x) in F3; [|exact Hx]. cbn. lra.
        -- exact (proj1 (IH V) F4 w x Hw Hx).
      * intros H. constructor; [|constructor].
        -- apply le0_says. intros x Hx. specialize (H v x (or_introl eq_refl) Hx). cbn in H. lra.
        -- apply Hi. intros x Hx. specialize (H v x (or_introl eq_refl) Hx). cbn in H. lra.
        -- apply IH. intros w x Hw. apply H. right. exact Hw.
    + cbn [bind]. rewrite E. cbn [bind app]. eexists. split; [reflexivity|]. intros V. split.
      * intros F. inversion F as [|? ? F1 F2]; subst. intros w x [<-|Hw] Hx.
        -- exact (proj1 (le0_says V v) F1 x Hx).
        -- exact (proj1 (IH V) F2 w x Hw Hx).
      * intros H. constructor.
        -- apply le0_says. intros x Hx. exact (H v x (or_introl eq_refl) Hx).
        -- apply IH. intros w x Hw. apply H. right. exact Hw.
Qed.

Lemma constraints_says equal (values : gen value) st st' vs V : values st = (st', Ok vs) ->
  (equal = true -> Forall is_affine vs) ->
  (fulfils V (snd (constraints 0 equal values st)) <-> forall v x, In v vs -> In x (val v V) -> says equal x).
Proof.
  intros E A. unfold constraints. destruct (Req_EM_T 0 0) as [_|n]; [|destruct n; reflexivity]. rewrite E. cbn [snd bind].
  destruct (yields_says equal vs A) as (its & -> & H). cbn [fulfils]. apply H.
Qed.
Lemma not_constraint weight equal (values : gen value) st : weight <> 0 ->
  constraints weight equal values st = (st, Ok []).
Proof. intros H. unfold constraints. destruct (Req_EM_T weight 0); [contradiction|reflexivity]. Qed.
Lemma not_objective weight (values : gen value) st : weight <= 0 -> objective weight values st = (st, Ok []).
Proof. intros H. unfold objective. destruct (Rlt_dec 0 weight); [lra|reflexivity]. Qed.
Lemma objective_says weight (values : gen value) st st' vs V : 0 < weight -> values st = (st', Ok vs) ->
  Forall is_fn vs ->
  objective_value V (snd (objective weight values st)) = Some (weight * sum_over vs (fun v => sum_over (val v V) (fun x => x))).
Proof.
  intros W E F. unfold objective. destruct (Rlt_dec 0 weight); [|contradiction]. rewrite E. cbn [snd bind].
  clear E. assert (H : exists os, collect (map (fsum weight) vs) = Ok os /\
     sum_over os (fun o => o V) = weight * sum_over vs (fun v => sum_over (val v V) (fun x => x))).
  { induction vs as [|v vs IH].
    - exists []. split; [reflexivity|]. unfold sum_over. cbn. ring.
    - inversion F as [|? ? F1 F2]; subst. destruct (IH F2) as (os & E & S). destruct v as [f|]; [|destruct F1].
      exists ((fun V => weight * sumR (fval f V)) :: os). split.
      + cbn [map collect fsum]. rewrite E. reflexivity.
      + unfold sum_over in *. cbn [map sumR fold_right] in *.
        unfold sumR in *. cbn [fold_right] in *. rewrite S. cbn [val]. rewrite map_id. ring. }
  destruct H as (os & -> & H). cbn [objective_value]. rewrite H. reflexivity.
Qed.

(** ** positions *)
Lemma set_nth_length {A} k (v : A) l : length (set_nth k v l) = length l.
Proof. revert k. induction l as [|a l IH]; intros [|k]; cbn [set_nth length]; auto. Qed.
Lemma set_nth_nth {A} k (v : A) l j d : (k < length l)%nat -> nth j (set_nth k v l) d = if (j =? k)%nat then v else nth j l d.
Proof.
  revert k j. induction l as [|a l IH]; intros [|k] [|j] H; cbn [length] in H; try lia; cbn [set_nth nth Nat.eqb]; auto.
  apply IH. lia.
Qed.
Lemma over_ok single equal (P : pots -> Prop) (Q : nat -> pots -> cand -> Prop) :
  (forall k p, P p -> exists p' vs items, single k p = (p', Ok vs) /\ yields equal vs = Ok items /\
     (forall V, Forall (item_holds V) items <-> Q k p V) /\ P p' /\ (forall j V, Q j p' V <-> Q j p V)) ->
  forall idx st, (forall k, (k < length st)%nat -> P (nth k st no_pots)) ->
  (forall i, In i idx -> (- Z.of_nat (length st) <= i < Z.of_nat (length st))%Z) ->
  exists st' vs items, over single idx st = (st', Ok vs) /\ yields equal vs = Ok items /\
  forall V, Forall (item_holds V) items <->
    forall i k, In i idx -> at_index (length st) i k -> Q k (nth k st no_pots) V.
Proof.
  intros Hs. induction idx as [|i idx IH]; intros st HP HI.
  - exists st, [], []. split; [reflexivity|]. split; [reflexivity|]. intros V. split; [intros _ i k []|constructor].
  - destruct (range_py (length st) i) as [k Hk]; [apply HI; left; reflexivity|].
    cbn [over]. pose proof Hk as [Hlt _]. apply at_index_py in Hk. rewrite Hk. apply at_index_py in Hk.
    fold no_pots. destruct (Hs k (nth k st no_pots) (HP k Hlt)) as (p' & vs & its & E & Y & HQ & P' & QQ).
    rewrite E.
    assert (L : length (set_nth k p' st) = length st) by apply set_nth_length.
    destruct (IH (set_nth k p' st)) as (st2 & vs2 & its2 & E2 & Y2 & H2).
    + rewrite L. intros j Hj. rewrite set_nth_nth by exact Hlt. destruct (j =? k)%nat; [exact P'|apply HP; exact Hj].
    + rewrite L. intros j Hj. apply HI. right. exact Hj.
    + rewrite E2. cbn [bind]. exists st2, (vs ++ vs2), (its ++ its2). split; [reflexivity|]. split; [exact (yields_app _ _ _ _ _ Y Y2)|].
      intros V. rewrite Forall_app, HQ, H2, L.
      assert (T : forall j, Q j (nth j (set_nth k p' st) no_pots) V <-> Q j (nth j st no_pots) V).
      { intros j. rewrite set_nth_nth by exact Hlt. destruct (Nat.eqb_spec j k) as [->|]; [apply QQ|reflexivity]. }
      split.
      * intros [A B] i' k' [<-|Hi'] Hk'.
        -- rewrite (at_fun _ _ _ _ Hk' Hk). exact A.
        -- apply T. exact (B i' k' Hi' Hk').
      * intros H. split; [exact (H i k (or_introl eq_refl) Hk)|]. intros i' k' Hi' Hk'. apply T. apply (H i' k'); [right; exact Hi'|exact Hk'].
Qed.
Lemma index_says single equal (P : pots -> Prop) (Q : nat -> pots -> cand -> Prop) index st V :
  (forall k p, P p -> exists p' vs items, single k p = (p', Ok vs) /\ yields equal vs = Ok items /\
     (forall V, Forall (item_holds V) items <-> Q k p V) /\ P p' /\ (forall j V, Q j p' V <-> Q j p V)) ->
  (forall k, (k < length st)%nat -> P (nth k st no_pots)) -> indices_ok (length st) index ->
  (fulfils V (snd (constraints 0 equal (single_index index single) st)) <->
   forall k, selected (length st) index k -> Q k (nth k st no_pots) V).
Proof.
  intros Hs HP HI. unfold constraints. destruct (Req_EM_T 0 0) as [_|n]; [|destruct n; reflexivity].
  unfold single_index.
  destruct (over_ok single equal P Q Hs (match index with Some idx => idx | None => map Z.of_nat (seq 0 (length st)) end) st HP)
    as (st' & vs & its & -> & Y & H).
  - destruct index as [l|]; [intros i Hi; exact (HI l i eq_refl Hi)|]. intros i Hi. apply in_map_iff in Hi.
    destruct Hi as (k & <- & Hk). apply in_seq in Hk. lia.
  - cbn [bind snd]. rewrite Y. cbn [fulfils]. rewrite H. unfold selected. destruct index as [l|].
    + split; [intros A k (i & Hi & Hk); exact (A i k Hi Hk)|intros A i k Hi Hk; apply A; exists i; split; assumption].
    + split.
      * intros A k Hk. apply (A (Z.of_nat k) k); [apply in_map, in_seq; lia|]. unfold at_index. lia.
      * intros A i k _ [Hk _]. exact (A k Hk).
Qed.

(** ** SymmetryConstraint *)
Lemma sym_side_ok m k a : (a < Z.of_nat m)%Z -> exists v, sym_side m k a = Ok v /\ is_affine v /\
  forall V, val v V = [voltage V k a].
Proof.
  intros H. unfold sym_side, voltage. destruct (Z.leb_spec 0 a) as [Ha|Ha].
  - assert (E : py_index (seq 0 m) a = Ok (Z.to_nat a)) by (apply at_index_py; unfold at_index; lia).
    rewrite E. cbn [bind]. eexists. split; [reflexivity|]. split; [reflexivity|]. intros V.
    destruct (Z.ltb_spec a 0); [lia|]. reflexivity.
  - eexists. split; [reflexivity|]. split; [exact I|]. intros V. destruct (Z.ltb_spec a 0); [reflexivity|lia].
Qed.
Lemma vminus_ok a b : is_affine a -> is_affine b -> is_affine (vminus a b) /\
  forall V x y, val a V = [x] -> val b V = [y] -> val (vminus a b) V = [x - y].
Proof.
  intros A B. destruct a as [f|u], b as [g|w]; cbn [vminus val is_affine fval affine] in *; split; try reflexivity; try exact I;
    intros V x y Ha Hb.
  - rewrite Ha, Hb. reflexivity.
  - rewrite Ha. cbn [map2]. injection Hb as <-. reflexivity.
  - rewrite Hb. cbn [map2]. injection Ha as <-. reflexivity.
  - congruence.
Qed.
Lemma symmetry_ok m symmetry index st V :
  (forall a b, In (a, b) symmetry -> (a < Z.of_nat m /\ b < Z.of_nat m)%Z) -> indices_ok (length st) index ->
  (fulfils V (snd (constraints 0 true (single_index index (symmetry_single m symmetry)) st)) <->
   forall k a b, selected (length st) index k -> In (a, b) symmetry -> voltage V k a = voltage V k b).
Proof.
  intros HS HI.
  rewrite (index_says (symmetry_single m symmetry) true (fun _ => True)
     (fun k _ V => forall a b, In (a, b) symmetry -> voltage V k a = voltage V k b)); [| |auto|exact HI].
  - split; [intros H k a b Hk; exact (H k Hk a b)|intros H k Hk a b; exact (H k a b Hk)].
  - intros k p _. exists p.
    assert (C : exists vs, collect (map (fun ab => bind (sym_side m k (fst ab)) (fun va =>
                              bind (sym_side m k (snd ab)) (fun vb => Ok (vminus va vb)))) symmetry) = Ok vs /\
       Forall is_affine vs /\ forall V, (forall v x, In v vs -> In x (val v V) -> x = 0) <->
          forall a b, In (a, b) symmetry -> voltage V k a = voltage V k b).
    { clear - HS. induction symmetry as [|[a b] l IH].
      - exists []. split; [reflexivity|]. split; [constructor|]. intros V. split; [intros _ a b []|intros _ v x []].
      - destruct IH as (vs & E & A & H); [intros a' b' Hab; apply HS; right; exact Hab|].
        destruct (HS a b (or_introl eq_refl)) as [Ha Hb].
        destruct (sym_side_ok m k a Ha) as (va & Ea & Aa & Va). destruct (sym_side_ok m k b Hb) as (vb & Eb & Ab & Vb).
        destruct (vminus_ok va vb Aa Ab) as [AA VV].
        exists (vminus va vb :: vs). split; [cbn [map collect fst snd]; rewrite Ea; cbn [bind]; rewrite Eb; cbn [bind]; rewrite E; reflexivity|].
        split; [constructor; assumption|]. intros V. specialize (VV V _ _ (Va V) (Vb V)). split.
        + intros F a' b' [[= <- <-]|Hab].
          * specialize (F (vminus va vb) (voltage V k a - voltage V k b) (or_introl eq_refl)). rewrite VV in F.
            specialize (F (or_introl eq_refl)). lra.
          * apply (proj1 (H V)); [|exact Hab]. intros v x Hv. apply F. right. exact Hv.
        + intros F v x [<-|Hv] Hx.
          * rewrite VV in Hx. destruct Hx as [<-|[]]. rewrite (F a b (or_introl eq_refl)). ring.
          * apply (proj2 (H V)) with (v := v); [|exact Hv|exact Hx]. intros a' b' Hab. apply F. right. exact Hab. }
    destruct C as (vs & E & A & H). destruct (yields_says true vs (fun _ => A)) as (its & Y & HY).
    exists vs, its. unfold symmetry_single. rewrite E. split; [reflexivity|]. split; [exact Y|].
    split; [intros V'; rewrite HY; exact (H V')|]. split; [exact I|]. reflexivity.
Qed.

(** ** PotentialConstraint *)
Lemma potential_ok m ov pmin pmax index st V :
  (forall k, (k < length st)%nat -> shaped m (nth k st no_pots)) -> indices_ok (length st) index ->
  (fulfils V (snd (constraints 0 false (single_index index (potential_single m ov pmin pmax)) st)) <->
   forall k, selected (length st) index k -> within pmin pmax (total_potential ov (nth k st no_pots) (nth k V []))).
Proof.
  intros HS HI.
  apply (index_says (potential_single m ov pmin pmax) false (shaped m)
     (fun k p V => within pmin pmax (total_potential ov p (nth k V [])))); [|exact HS|exact HI].
  intros k p Hp. unfold potential_single. pose proof Hp as [Hl _]. rewrite Hl, Nat.eqb_refl.
  set (p' := if ov then _ else p).
  set (vs := opt_list _ _ ++ _). destruct (yields_says false vs) as (its & Y & HY); [discriminate|].
  assert (T : forall v, p0 p' + dot (pv p') v = total_potential ov p v).
  { intros v. unfold total_potential, offset, p'. destruct ov; cbn [p0 pv]; [ring|reflexivity]. }
  exists p', vs, its. split; [reflexivity|]. split; [exact Y|]. split; [|split].
  - intros V'. rewrite HY. unfold vs. clear Y HY. unfold within. split.
    + intros H. split; intros b ->.
      * specialize (H (VFn (Fn (fun V0 => [b - (p0 p' + dot (pv p') (nth k V0 []))]) true)) (b - total_potential ov p (nth k V' []))).
        cbn [val fval] in H. rewrite T in H. unfold says in H. enough (b - total_potential ov p (nth k V' []) <= 0) by lra.
        apply H; [apply in_or_app; right; left; reflexivity|left; reflexivity].
      * specialize (H (VFn (Fn (fun V0 => [(p0 p' + dot (pv p') (nth k V0 [])) - b]) true)) (total_potential ov p (nth k V' []) - b)).
        cbn [val fval] in H. rewrite T in H. unfold says in H. enough (total_potential ov p (nth k V' []) - b <= 0) by lra.
        apply H; [apply in_or_app; left; left; reflexivity|left; reflexivity].
    + intros [H1 H2] v x Hv Hx. unfold says. apply in_app_or in Hv. destruct Hv as [Hv|Hv].
      * destruct pmax as [b|]; [|destruct Hv]. destruct Hv as [<-|[]]. cbn [val fval] in Hx. rewrite T in Hx. destruct Hx as [<-|[]].
        specialize (H2 b eq_refl). lra.
      * destruct pmin as [b|]; [|destruct Hv]. destruct Hv as [<-|[]]. cbn [val fval] in Hx. rewrite T in Hx. destruct Hx as [<-|[]].
        specialize (H1 b eq_refl). lra.
  - unfold p', shaped in *. destruct ov; exact Hp.
  - intros j V'. enough (E : total_potential ov p' (nth j V' []) = total_potential ov p (nth j V' [])) by (rewrite E; reflexivity).
    unfold total_potential, offset, p'. destruct ov; reflexivity.
Qed.
