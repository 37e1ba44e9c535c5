(** The analysis run on the functions of the module, and histories of calls. *)
From Coq Require Import List String Arith Bool Lia.
From Verif Require Import ModelRefs SpecRefs ProofRefs.
Import ListNotations.
Open Scope string_scope.
Open Scope list_scope.
Notation length := List.length.

Definition unsafe_names := ["quaternion_from_matrix"; "quaternion_slerp"; "vector_norm"].
Definition euler_names := ["euler_matrix"; "euler_from_matrix"; "quaternion_from_euler"].
Definition is_in (names : list string) (name : string) : bool := existsb (String.eqb name) names.

(** The last parameter is no string. *)
Definition plain_patterns (n : nat) : list (list kind) :=
  flat_map (fun ks => [ks ++ [KMissing]; ks ++ [KNone]; ks ++ [KOther]]) (patterns true (n - 1)).

Definition check (f : string * (nat * prog)) : bool :=
  let '(name, (n, p)) := f in
  if is_in euler_names name then forallb (fun ks => safe false false ks p entry) (plain_patterns n)
  else forallb (fun ks => safe (is_in unsafe_names name) false ks p entry) (patterns true n).

Lemma checked : forallb check functions = true.
Proof. vm_compute. reflexivity. Qed.

Lemma euler_provided name n f : In (name, (n, f)) functions -> is_in euler_names name = true -> In (n, f) euler_functions /\ 1 <= n.
Proof.
  intros I E. unfold functions in I. cbn [In] in I.
  repeat (destruct I as [I|I]; [injection I as <- <- <-; first [discriminate E|split; [cbn; tauto|lia]]|]). destruct I.
Qed.

Lemma in_patterns ks : In ks (patterns true (length ks)).
Proof.
  induction ks as [|k ks IH]; [left; reflexivity|]. cbn [patterns List.length]. apply in_flat_map. exists ks. split; [exact IH|].
  cbn [app]. destruct k; cbn; tauto.
Qed.
Lemma in_plain ks k : k <> KText -> In (ks ++ [k]) (plain_patterns (length (ks ++ [k]))).
Proof.
  intros N. unfold plain_patterns. rewrite app_length. cbn [List.length]. rewrite Nat.add_sub. apply in_flat_map. exists ks.
  split; [apply in_patterns|]. destruct k; cbn; tauto.
Qed.

Lemma is_in_spec names name : is_in names name = true <-> In name names.
Proof.
  unfold is_in. rewrite existsb_exists. split.
  - intros (u & U & E). apply String.eqb_eq in E. subst. exact U.
  - intros H. exists name. split; [exact H|apply String.eqb_refl].
Qed.

Lemma check_use name n f args : In (name, (n, f)) functions -> length args = n -> unnamed f args ->
  safe (is_in unsafe_names name) false (map kind_of args) f entry = true.
Proof.
  intros I L U. pose proof checked as C. rewrite forallb_forall in C. specialize (C _ I). cbn [check] in C.
  destruct (is_in euler_names name) eqn:E.
  - assert (Q : is_in unsafe_names name = false).
    { apply is_in_spec in E. cbn [In euler_names] in E. destruct E as [<-|[<-|[<-|[]]]]; reflexivity. }
    rewrite Q. rewrite forallb_forall in C. apply C. destruct (euler_provided name n f I E) as (M & P).
    destruct (exists_last (l := args)) as (before & last & ->); [intros ->; cbn in L; lia|].
    rewrite map_app. cbn [map]. rewrite <- L, <- (map_length kind_of), map_app. apply in_plain.
    intros K. destruct last as [|k o]; [discriminate K|]. cbn in K. subst k. apply U; [rewrite L; exact M|]. exists before, o. reflexivity.
  - rewrite forallb_forall in C. apply C. rewrite <- L, <- (map_length kind_of). apply in_patterns.
Qed.

Lemma entry_inv h : well_formed h -> inv h (enter h) entry.
Proof.
  intros (W & _). constructor; cbn [enter entry av count blocks env next gil err agil aerr].
  - intros x. rewrite sumv_zero; [lia|]. reflexivity.
  - intros x. rewrite sumv_zero; [lia|]. reflexivity.
  - intros v. reflexivity.
  - intros v w E. discriminate E.
  - exact W.
  - reflexivity.
  - reflexivity.
Qed.
Lemma singles h : well_formed h -> forall o, o < 3 -> 0 < h_count h o.
Proof. intros (_ & A & B & C) o Ho. destruct o as [|[|[|o]]]; try assumption. lia. Qed.

Lemma call_good crash leak f args orc h : well_formed h -> held h args -> safe crash leak (map kind_of args) f entry = true ->
  good crash leak h (call f args orc h).
Proof. intros W H S. exact (sound crash leak h args (singles h W) H f orc (enter h) entry (entry_inv h W) S). Qed.

Lemma good_settled crash h r s : good crash false h (Done r s) -> settled h r (leave s) /\ orderly r s.
Proof.
  cbn [good]. intros (O & B & T & N & o & l & _ & L & _ & C). specialize (L eq_refl). subst l. split; [|exact O]. split; [|split].
  - intros x. cbn [leave h_count]. rewrite C. destruct (x =? o)%nat; lia.
  - exact B.
  - intros o' it E D. destruct (T o' it E D) as (_ & X). exact X.
Qed.

Lemma provided_good f n h args orc : provided f n -> length args = n -> unnamed f args -> well_formed h -> held h args ->
  good true false h (call f args orc h).
Proof.
  intros (name & I) L U W H. pose proof (call_good _ _ f args orc h W H (check_use name n f args I L U)) as G.
  destruct (call f args orc h); [reflexivity|exact G].
Qed.

Lemma settled_calls f n h args orc r s : provided f n -> length args = n -> unnamed f args -> well_formed h -> held h args ->
  call f args orc h = Done r s -> settled h r (leave s).
Proof.
  intros P L U W H E. pose proof (provided_good f n h args orc P L U W H) as G. rewrite E in G. apply (good_settled true h r s G).
Qed.

Lemma safe_calls f n h args orc : provided_but unsafe_names f n -> length args = n -> unnamed f args ->
  well_formed h -> held h args -> exists r s, call f args orc h = Done r s.
Proof.
  intros (name & I & N) L U W H. pose proof (call_good _ _ f args orc h W H (check_use name n f args I L U)) as G.
  assert (Q : is_in unsafe_names name = false).
  { destruct (is_in unsafe_names name) eqn:E; [|reflexivity]. apply is_in_spec in E. contradiction. }
  rewrite Q in G. destruct (call f args orc h) as [|r s]; [discriminate G|]. exists r, s. reflexivity.
Qed.

(** *** Names of axes *)
Lemma leaks : forallb (fun f : nat * prog => forallb (fun ks => safe true true (ks ++ [KText]) (snd f) entry) (patterns true (fst f - 1))) euler_functions = true.
Proof. vm_compute. reflexivity. Qed.

Lemma text_good f before name h orc : In (length (before ++ [Arg KText name]), f) euler_functions -> well_formed h -> held h (before ++ [Arg KText name]) ->
  good true true h (call f (before ++ [Arg KText name]) orc h).
Proof.
  intros F W H. apply call_good; [exact W|exact H|]. rewrite map_app. cbn [map kind_of].
  pose proof leaks as S. rewrite forallb_forall in S. specialize (S _ F). cbn [fst snd] in S. rewrite forallb_forall in S. apply S.
  rewrite app_length. cbn [List.length]. rewrite Nat.add_sub, <- (map_length kind_of). apply in_patterns.
Qed.

Lemma text_leaks f args h orc r s : In (length args, f) euler_functions -> axes_by_name args -> well_formed h -> held h args ->
  call f args orc h = Done r s -> r <> NULL -> exists o, settled_but o h r (leave s).
Proof.
  intros F (before & name & ->) W H E R. pose proof (text_good f before name h orc F W H) as G. rewrite E in G. cbn [good] in G.
  destruct G as (_ & B & T & _ & o & l & _ & _ & L3 & C). specialize (L3 eq_refl R). subst l. exists o. split; [|split].
  - intros x. cbn [leave h_count]. apply C.
  - exact B.
  - intros o' it X. destruct it as [|y it]; [reflexivity|]. destruct (T o' _ X) as (Q & _); [discriminate|discriminate Q].
Qed.

Lemma good_wf crash leak h r s : well_formed h -> good crash leak h (Done r s) -> well_formed (leave s).
Proof.
  intros (W1 & W2 & W3 & W4) (_ & _ & _ & N & o & l & _ & _ & _ & C). split; [exact N|]. cbn [leave h_count]. rewrite !C. lia.
Qed.

Lemma by_name_dec args : axes_by_name args \/ ~ axes_by_name args.
Proof.
  destruct (rev args) as [|[|k o] l] eqn:E.
  - right. intros (b & o & ->). rewrite rev_app_distr in E. discriminate E.
  - right. intros (b & o & ->). rewrite rev_app_distr in E. discriminate E.
  - destruct k; try (right; intros (b & o' & ->); rewrite rev_app_distr in E; discriminate E).
    left. exists (rev l), o. rewrite <- (rev_involutive args), E. reflexivity.
Qed.

(** Every function, whatever it is given. *)
Lemma orderly_calls f n h args orc r s : provided f n -> length args = n -> well_formed h -> held h args ->
  call f args orc h = Done r s -> orderly r s /\ well_formed (leave s).
Proof.
  intros P L W H E.
  assert (D : (In (length args, f) euler_functions /\ axes_by_name args) \/ unnamed f args).
  { destruct (by_name_dec args) as [A|A]; [|right; intros _; exact A].
    destruct P as (name & I). destruct (is_in euler_names name) eqn:Q.
    - left. split; [|exact A]. rewrite L. apply (euler_provided name n f I Q).
    - right. intros M. exfalso. rewrite L in M. revert Q. unfold functions in I. cbn [In] in I.
      repeat (destruct I as [I|I]; [injection I as <- <- <-; first [discriminate | intros _; cbn in M; repeat (destruct M as [M|M]; [discriminate M|]); exact M]|]). destruct I. }
  destruct D as [(F & before & name & ->)|U].
  - pose proof (text_good f before name h orc F W H) as G. rewrite E in G. split; [exact (proj1 G)|exact (good_wf _ _ _ _ _ W G)].
  - pose proof (provided_good f n h args orc P L U W H) as G. rewrite E in G. split; [exact (proj1 G)|exact (good_wf _ _ _ _ _ W G)].
Qed.

(** *** Histories *)
Lemma dec_at f o x : dec f o x = f x - (if (x =? o)%nat then 1 else 0).
Proof. unfold dec. destruct (x =? o)%nat; lia. Qed.
Lemma dec_fold items : forall c x, fold_left dec items c x = c x - count_occ Nat.eq_dec items x.
Proof.
  induction items as [|y items IH]; intros c x; cbn [fold_left count_occ]; [lia|]. rewrite IH, dec_at.
  destruct (Nat.eq_dec y x); destruct (eqb_case x y) as [[E Q]|[E Q]]; rewrite E; try congruence; lia.
Qed.

Lemma occ_none o items : ~ In o items -> count_occ Nat.eq_dec items o = 0.
Proof. apply count_occ_not_In. Qed.

Lemma dropped_back h r h' : settled h r h' -> forall x, h_count (dropped r h') x = h_count h x.
Proof.
  intros (C & _ & T) x. destruct r as [|o items]; cbn [dropped h_count].
  - rewrite C. cbn [given]. lia.
  - destruct items as [|y items].
    + cbn [fold_left].
      assert (E : dec (h_count h') o x = h_count h x) by (rewrite dec_at, C; cbn [given count_occ]; destruct (x =? o)%nat; lia).
      destruct (dec (h_count h') o o =? 0)%nat; exact E.
    + destruct (T o (y :: items) eq_refl) as (Z & N); [discriminate|].
      assert (E : dec (h_count h') o o = 0).
      { rewrite dec_at, C, Z. cbn [given]. rewrite Nat.eqb_refl, (occ_none o (y :: items) N). lia. }
      rewrite E. cbn [Nat.eqb]. rewrite (dec_fold (y :: items)), dec_at, C. unfold given. destruct (x =? o)%nat; lia.
Qed.

Lemma dropped_least r h x : h_count (dropped r h) x <= h_count h x.
Proof.
  destruct r as [|o items]; cbn [dropped h_count]; [lia|].
  destruct (dec (h_count h) o o =? 0)%nat; [rewrite dec_fold|]; rewrite dec_at; lia.
Qed.
Lemma dropped_blocks r h : h_blocks (dropped r h) = h_blocks h.
Proof. destruct r; reflexivity. Qed.
Lemma dropped_next r h : h_next (dropped r h) = h_next h.
Proof. destruct r; reflexivity. Qed.

Lemma settled_history es : forall h rs h',
  (forall e, In e es -> provided (e_fun e) (length (e_args e)) /\ unnamed (e_fun e) (e_args e)) ->
  well_formed h -> held_throughout es h -> history es h = Some (rs, h') ->
  (forall x, h_count h' x = h_count h x + given_all rs x) /\ (forall b, h_blocks h' b = h_blocks h b) /\ well_formed h'.
Proof.
  induction es as [|e es IH]; intros h rs h' P W T E.
  - injection E as <- <-. split; [|split; [reflexivity|exact W]]. intros x. unfold given_all. cbn. lia.
  - cbn [history held_throughout] in *. destruct T as (H & T). destruct (call (e_fun e) (e_args e) (e_orc e) h) as [|r s] eqn:K; [discriminate E|].
    destruct (P e (or_introl eq_refl)) as (P1 & P2).
    pose proof (settled_calls _ _ h _ _ r s P1 eq_refl P2 W H K) as S.
    destruct (orderly_calls _ _ h _ _ r s P1 eq_refl W H K) as (_ & W').
    destruct (e_keep e).
    + destruct (history es (leave s)) as [[rs1 h1]|] eqn:Q; [|discriminate E]. injection E as <- <-.
      destruct (IH _ _ _ (fun e' I => P e' (or_intror I)) W' T Q) as (C & B & W''). destruct S as (S1 & S2 & S3). split; [|split; [|exact W'']].
      * intros x. rewrite C, S1. unfold given_all. cbn [map]. rewrite list_sum_cons. lia.
      * intros b. rewrite B. apply S2.
    + destruct (history es (dropped r (leave s))) as [[rs1 h1]|] eqn:Q; [|discriminate E]. injection E as <- <-.
      assert (WD : well_formed (dropped r (leave s))).
      { destruct W as (_ & D1 & D2 & D3). split.
        - intros x. rewrite dropped_next, dropped_blocks. intros Hx. destruct (proj1 W' x Hx) as (Z1 & Z2).
          pose proof (dropped_least r (leave s) x). split; [lia|exact Z2].
        - rewrite !(dropped_back h r (leave s) S). tauto. }
      destruct (IH _ _ _ (fun e' I => P e' (or_intror I)) WD T Q) as (C & B & W''). destruct S as (S1 & S2 & S3). split; [|split; [|exact W'']].
      * intros x. rewrite C. rewrite (dropped_back h r (leave s)); [reflexivity|]. split; [exact S1|split; [exact S2|exact S3]].
      * intros b. rewrite B, dropped_blocks. apply S2.
Qed.

Lemma safe_history es : forall h,
  (forall e, In e es -> provided_but unsafe_names (e_fun e) (length (e_args e)) /\ unnamed (e_fun e) (e_args e)) ->
  well_formed h -> held_throughout es h -> exists rs h', history es h = Some (rs, h').
Proof.
  induction es as [|e es IH]; intros h P W T; [exists [], h; reflexivity|]. cbn [history held_throughout] in *. destruct T as (H & T).
  destruct (P e (or_introl eq_refl)) as (P1 & P2).
  destruct (safe_calls _ _ h _ (e_orc e) P1 eq_refl P2 W H) as (r & s & K). rewrite K in *.
  assert (P3 : provided (e_fun e) (length (e_args e))) by (destruct P1 as (name & I & _); exists name; exact I).
  pose proof (settled_calls _ _ h _ _ r s P3 eq_refl P2 W H K) as S.
  destruct (orderly_calls _ _ h _ _ r s P3 eq_refl W H K) as (_ & W').
  assert (WD : well_formed (dropped r (leave s))).
  { destruct W as (_ & D1 & D2 & D3). split.
    - intros x. rewrite dropped_next, dropped_blocks. intros Hx. destruct (proj1 W' x Hx) as (Z1 & Z2).
      pose proof (dropped_least r (leave s) x). split; [lia|exact Z2].
    - rewrite !(dropped_back h r (leave s) S). tauto. }
  destruct (e_keep e).
  - destruct (IH _ (fun e' I => P e' (or_intror I)) W' T) as (rs & h' & Q). rewrite Q. eauto.
  - destruct (IH _ (fun e' I => P e' (or_intror I)) WD T) as (rs & h' & Q). rewrite Q. eauto.
Qed.

(** Calls that name the axes, results dropped: one reference more each time. *)
Lemma growing es : forall h rs h',
  (forall e, In e es -> In (length (e_args e), e_fun e) euler_functions /\ axes_by_name (e_args e) /\ e_keep e = false) ->
  well_formed h -> held_throughout es h -> valued_throughout es h -> history es h = Some (rs, h') ->
  exists left, length left = length es /\ forall x, h_count h' x = h_count h x + count_occ Nat.eq_dec left x.
Proof.
  induction es as [|e es IH]; intros h rs h' P W T R E.
  - injection E as <- <-. exists []. split; [reflexivity|]. intros x. cbn. lia.
  - cbn [history held_throughout valued_throughout] in *. destruct T as (H & T). destruct (call (e_fun e) (e_args e) (e_orc e) h) as [|r s] eqn:K; [discriminate E|].
    destruct R as (R0 & R). destruct (P e (or_introl eq_refl)) as (P1 & P2 & P3). rewrite P3 in *.
    destruct (history es (dropped r (leave s))) as [[rs1 h1]|] eqn:Q; [|discriminate E]. injection E as <- <-.
    destruct (text_leaks _ _ h _ r s P1 P2 W H K R0) as (o & S1 & S2 & S3).
    assert (P0 : provided (e_fun e) (length (e_args e))).
    { cbn in P1. destruct P1 as [P1|[P1|[P1|[]]]]; injection P1 as <- <-; [exists "euler_matrix"|exists "euler_from_matrix"|exists "quaternion_from_euler"]; cbn; tauto. }
    destruct (orderly_calls _ _ h _ _ r s P0 eq_refl W H K) as (_ & W').
    assert (D : forall x, h_count (dropped r (leave s)) x = h_count h x + (if (x =? o)%nat then 1 else 0)).
    { intros x. destruct r as [|o' items]; [cbn [dropped]; rewrite S1; cbn [given]; lia|]. specialize (S3 o' items eq_refl). subst items.
      cbn [dropped h_count fold_left]. assert (Y : dec (h_count (leave s)) o' x = h_count h x + (if (x =? o)%nat then 1 else 0)).
      { rewrite dec_at, S1. cbn [given count_occ]. destruct (x =? o')%nat; lia. }
      destruct (dec (h_count (leave s)) o' o' =? 0)%nat; exact Y. }
    assert (WD : well_formed (dropped r (leave s))).
    { destruct W as (_ & D1 & D2 & D3). split.
      - intros x. rewrite dropped_next, dropped_blocks. intros Hx. destruct (proj1 W' x Hx) as (Z1 & Z2).
        pose proof (dropped_least r (leave s) x). split; [lia|exact Z2].
      - rewrite !D. lia. }
    destruct (IH _ _ _ (fun e' I => P e' (or_intror I)) WD T R Q) as (l & L & C).
    exists (o :: l). split; [cbn [List.length]; lia|]. intros x. rewrite C, D. cbn [count_occ].
    destruct (eqb_case x o) as [[-> ->]|[-> N]]; [destruct (Nat.eq_dec o o); [lia|congruence]|destruct (Nat.eq_dec o x); [congruence|lia]].
Qed.
