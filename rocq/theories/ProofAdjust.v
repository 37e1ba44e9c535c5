From Verif Require Import Base ModelExpr ModelField ModelGeom ModelTools SpecField SpecPoly SpecTools.
Open Scope R_scope.
Notation length := List.length.

(** ** dictionaries *)
Lemma get_set {V} (d : dict V) k v m : dict_get (dict_set d k v) m = if String.eqb k m then Ok v else dict_get d m.
Proof.
  unfold dict_get. induction d as [|[k' v'] d IH]; cbn [dict_set find fst snd].
  - destruct (String.eqb k m); reflexivity.
  - destruct (String.eqb_spec k' k) as [->|D]; cbn [find fst snd].
    + destruct (String.eqb k m); reflexivity.
    + destruct (String.eqb_spec k' m) as [->|D'].
      * destruct (String.eqb_spec k m) as [->|]; [congruence|reflexivity].
      * exact IH.
Qed.
Lemma set_keys {V} (d : dict V) k v : In k (map fst d) -> map fst (dict_set d k v) = map fst d.
Proof.
  induction d as [|[k' v'] d IH]; intros H; [destruct H|]. cbn [dict_set]. destruct (String.eqb_spec k' k) as [->|D]; [reflexivity|]. cbn [map fst]. f_equal. apply IH. destruct H as [H|H]; [cbn in H; congruence|exact H].
Qed.
Lemma set_new {V} (d : dict V) k v : ~ In k (map fst d) -> dict_set d k v = d ++ [(k, v)].
Proof.
  induction d as [|[k' v'] d IH]; intros H; [reflexivity|]. cbn [dict_set app]. destruct (String.eqb_spec k' k) as [->|D]; [exfalso; apply H; left; reflexivity|]. rewrite IH; [reflexivity|]. intros K. apply H. right. exact K.
Qed.
Lemma get_in {V} (d : dict V) k v : NoDup (map fst d) -> (dict_get d k = Ok v <-> In (k, v) d).
Proof.
  unfold dict_get. induction d as [|[k' v'] d IH]; intros N; cbn [find fst snd]; [split; [discriminate|intros []]|]. inversion N as [|? ? N1 N2]; subst. cbn [map fst] in *.
  destruct (String.eqb_spec k' k) as [->|D].
  - split; [intros [= ->]; left; reflexivity|]. intros [[= ->]|H]; [reflexivity|]. exfalso. apply N1. apply (in_map fst) in H. exact H.
  - rewrite (IH N2). split; [intros H; right; exact H|]. intros [[= -> ->]|H]; [congruence|exact H].
Qed.
Lemma get_some {V} (d : dict V) k : In k (map fst d) -> exists v, dict_get d k = Ok v.
Proof.
  unfold dict_get. induction d as [|[k' v'] d IH]; intros H; [destruct H|]. cbn [find fst snd]. destruct (String.eqb_spec k' k) as [->|D]; [eexists; reflexivity|]. apply IH. destruct H as [H|H]; [cbn in H; congruence|exact H].
Qed.
Lemma in_dict_iff {V} (d : dict V) k : in_dict d k = true <-> In k (map fst d).
Proof.
  unfold in_dict. rewrite existsb_exists. split.
  - intros ([m v] & H & E). apply String.eqb_eq in E. cbn in E. subst. apply (in_map fst) in H. exact H.
  - intros H. apply in_map_iff in H as ([m v] & <- & H). exists (m, v). split; [exact H|apply String.eqb_refl].
Qed.
(** value for a name in a configuration *)
Definition configured (config : dict R) (n : string) (old : option R) : option R :=
  match dict_get config n with Ok v => Some v | Raise _ => old end.

(** ** set_all *)
Lemma set_dc_spec s n v : In n (map ename s) -> exists s', set_dc s n v = Ok s' /\ Forall2 same_but_dc s' s /\
  forall m, dc_of s' m = if String.eqb n m then Some v else dc_of s m.
Proof.
  assert (Refl : forall l, Forall2 same_but_dc l l) by (intros l; induction l; constructor; auto; repeat split).
  induction s as [|e s IH]; intros H; [destruct H|]. cbn [set_dc]. destruct (String.eqb_spec (ename e) n) as [E|D].
  - eexists. split; [reflexivity|]. split; [constructor; [repeat split|apply Refl]|]. intros m. unfold dc_of. cbn [find ename]. rewrite E. destruct (String.eqb n m); reflexivity.
  - destruct IH as (s' & E & F & G); [destruct H as [H|H]; [congruence|exact H]|]. rewrite E. cbn [bind]. eexists. split; [reflexivity|]. split; [constructor; [repeat split|exact F]|].
    intros m. unfold dc_of in *. cbn [find]. destruct (String.eqb_spec (ename e) m) as [E'|D']; [|apply G]. destruct (String.eqb_spec n m) as [->|]; [congruence|reflexivity].
Qed.
Lemma same_names a b : Forall2 same_but_dc a b -> map ename a = map ename b.
Proof. induction 1 as [|x y a b [H _] _ IH]; cbn; congruence. Qed.
Lemma same_trans a b c : Forall2 same_but_dc a b -> Forall2 same_but_dc b c -> Forall2 same_but_dc a c.
Proof.
  intros H. revert c. induction H as [|x y a b (A & B & C') _ IH]; intros c K; inversion K as [|? z ? c' (A' & B' & D') K']; subst; constructor; auto. repeat split; congruence.
Qed.
Lemma set_all_spec {X C} config : forall a : adjust X C, NoDup (map fst config) -> incl (map fst config) (map ename (asys a)) ->
  exists s, set_all config a = (with_sys a s, Ok tt) /\ Forall2 same_but_dc s (asys a) /\
  forall m, dc_of s m = configured config m (dc_of (asys a) m).
Proof.
  induction config as [|[n v] config IH]; intros a N I.
  - exists (asys a). split; [destruct a; reflexivity|]. split; [generalize (asys a); intros l; induction l; constructor; auto; repeat split|]. reflexivity.
  - cbn [set_all]. destruct (set_dc_spec (asys a) n v) as (s' & E & F & G); [apply I; left; reflexivity|]. rewrite E. inversion N as [|? ? N1 N2]; subst.
    destruct (IH (with_sys a s') N2) as (s & E' & F' & G').
    { cbn [with_sys asys]. rewrite (same_names _ _ F). intros m Hm. apply I. right. exact Hm. }
    exists s. split; [rewrite E'; reflexivity|]. split; [apply (same_trans _ _ _ F' F)|]. intros m. rewrite G'. cbn [with_sys asys]. unfold configured. rewrite G.
    unfold dict_get. cbn [find fst snd]. destruct (String.eqb_spec n m) as [->|D]; [|reflexivity].
    assert (find (fun kv => String.eqb (fst kv) m) config = None) as ->; [|reflexivity].
    destruct (find _ config) as [[k w]|] eqn:Fd; [|reflexivity]. apply find_some in Fd as [Fd Fe]. apply String.eqb_eq in Fe. cbn in Fe. subst. exfalso. apply N1. apply (in_map fst) in Fd. exact Fd.
Qed.
(** ** append_all *)
Definition appended (h : res (list R)) (v : res R) : res (list R) :=
  match h, v with Ok h, Ok v => Ok (h ++ [v]) | h, Raise _ => h | Raise e, _ => Raise e end.
Lemma append_all_spec {X C} config : forall a : adjust X C, NoDup (map fst config) -> incl (map fst config) (map fst (avolts a)) ->
  exists v, append_all config a = (with_volts a v, Ok tt) /\ map fst v = map fst (avolts a) /\
  forall m, dict_get v m = appended (dict_get (avolts a) m) (dict_get config m).
Proof.
  induction config as [|[n w] config IH]; intros a N I.
  - exists (avolts a). split; [destruct a; reflexivity|]. split; [reflexivity|]. intros m. unfold appended. destruct (dict_get (avolts a) m); reflexivity.
  - cbn [append_all]. destruct (get_some (avolts a) n (I n (or_introl eq_refl))) as [h E]. rewrite E. inversion N as [|? ? N1 N2]; subst.
    assert (K := set_keys (avolts a) n (h ++ [w]) (I n (or_introl eq_refl))).
    destruct (IH (with_volts a (dict_set (avolts a) n (h ++ [w]))) N2) as (v & E' & F' & G').
    { cbn [with_volts avolts]. rewrite K. intros m Hm. apply I. right. exact Hm. }
    exists v. split; [rewrite E'; reflexivity|]. cbn [with_volts avolts] in F', G'. split; [now rewrite F'|]. intros m. rewrite G', get_set. unfold dict_get at 2 4. cbn [find fst snd].
    destruct (String.eqb_spec n m) as [->|D]; [|reflexivity].
    assert (find (fun kv => String.eqb (fst kv) m) config = None) as ->.
    { destruct (find _ config) as [[k u]|] eqn:Fd; [|reflexivity]. apply find_some in Fd as [Fd Fe]. apply String.eqb_eq in Fe. cbn in Fe. subst. exfalso. apply N1. apply (in_map fst) in Fd. exact Fd. }
    rewrite E. reflexivity.
Qed.
(** ** repeat_last *)
Lemma py_last {A} (h : list A) v : py_index (h ++ [v]) (-1) = Ok v.
Proof.
  unfold py_index. cbn [Z.ltb Z.compare]. rewrite app_length. cbn [length]. destruct (Z.ltb_spec (-1 + Z.of_nat (length h + 1)) 0) as [|_]; [lia|].
  replace (Z.to_nat (-1 + Z.of_nat (length h + 1))) with (length h) by lia. rewrite nth_error_app2, Nat.sub_diag by lia. reflexivity.
Qed.
Definition repeated (h : res (list R)) : res (list R) :=
  match h with Ok h => bind (py_index h (-1)) (fun v => Ok (h ++ [v])) | Raise e => Raise e end.
Lemma repeat_last_spec {X C} config keys : forall a : adjust X C, NoDup keys -> incl keys (map fst (avolts a)) ->
  (forall n, In n keys -> in_dict config n = false -> exists h v, dict_get (avolts a) n = Ok (h ++ [v])) ->
  exists v, repeat_last config keys a = (with_volts a v, Ok tt) /\ map fst v = map fst (avolts a) /\
  forall m, dict_get v m = if existsb (String.eqb m) keys && negb (in_dict config m) then repeated (dict_get (avolts a) m) else dict_get (avolts a) m.
Proof.
  induction keys as [|n keys IH]; intros a N I H.
  - exists (avolts a). split; [destruct a; reflexivity|]. split; reflexivity.
  - inversion N as [|? ? N1 N2]; subst. cbn [repeat_last existsb].
    assert (NK : existsb (String.eqb n) keys = false).
    { destruct (existsb (String.eqb n) keys) eqn:Ex; [|reflexivity]. apply existsb_exists in Ex as (k & Hk & Ek). apply String.eqb_eq in Ek. subst. contradiction. }
    destruct (in_dict config n) eqn:Ed.
    + destruct (IH a N2) as (v & E & F & G); [intros m Hm; apply I; right; exact Hm|intros m Hm; apply H; right; exact Hm|]. exists v. split; [exact E|]. split; [exact F|].
      intros m. rewrite G. destruct (String.eqb_spec m n) as [->|D]; [|reflexivity]. rewrite NK, Ed. cbn. reflexivity.
    + destruct (H n (or_introl eq_refl) Ed) as (h & w & Eh). rewrite Eh, py_last. set (d := dict_set (avolts a) n ((h ++ [w]) ++ [w])).
      assert (K : map fst d = map fst (avolts a)) by (apply set_keys, I; left; reflexivity).
      destruct (IH (with_volts a d) N2) as (v & E & F & G).
      { cbn [with_volts avolts]. rewrite K. intros m Hm. apply I. right. exact Hm. }
      { intros m Hm Hd. cbn [with_volts avolts]. unfold d. rewrite get_set. destruct (String.eqb_spec n m) as [->|D]; [contradiction|]. apply H; [right; exact Hm|exact Hd]. }
      exists v. split; [rewrite E; reflexivity|]. cbn [with_volts avolts] in F, G. split; [now rewrite F|]. intros m. rewrite G. unfold d. rewrite get_set. rewrite (String.eqb_sym m n).
      destruct (String.eqb_spec n m) as [<-|D]; [|reflexivity]. rewrite NK, Ed, Eh. cbn [andb orb negb repeated]. rewrite py_last. reflexivity.
Qed.
(** ** set_volts *)
Lemma set_volts_saved {X C} config (a : adjust X C) : good_config (map ename (asys a)) config -> map fst (avolts a) = map ename (asys a) -> NoDup (map ename (asys a)) ->
  (forall n, In n (map ename (asys a)) -> ~ In n (map fst config) -> exists h v, dict_get (avolts a) n = Ok (h ++ [v])) ->
  exists s v, set_volts config true a = (Adjust s v (aconf a) (axms a) (acurves a) (apropose a), Ok tt) /\
  Forall2 same_but_dc s (asys a) /\ (forall m, dc_of s m = configured config m (dc_of (asys a) m)) /\ map fst v = map ename s /\
  forall m, In m (map ename (asys a)) -> dict_get v m =
    match dict_get config m with Ok w => bind (dict_get (avolts a) m) (fun h => Ok (h ++ [w])) | Raise _ => repeated (dict_get (avolts a) m) end.
Proof.
  intros [N I] K ND H. unfold set_volts. destruct (set_all_spec config a N I) as (s & E & F & G). rewrite E.
  destruct (append_all_spec config (with_sys a s) N) as (v1 & E1 & F1 & G1); [cbn [with_sys avolts]; rewrite K; exact I|]. rewrite E1. cbn [with_sys avolts] in F1, G1. cbn [with_volts with_sys avolts].
  destruct (repeat_last_spec config (map fst v1) (with_volts (with_sys a s) v1)) as (v & E2 & F2 & G2).
  { rewrite F1, K. exact ND. } { cbn [with_volts avolts]. apply incl_refl. }
  { cbn [with_volts avolts]. intros n Hn Hd. rewrite F1, K in Hn. rewrite G1. assert (~ In n (map fst config)) as Hc by (rewrite <- in_dict_iff, Hd; discriminate).
    destruct (H n Hn Hc) as (h & w & Eh). rewrite Eh. unfold appended. destruct (dict_get config n) eqn:Ec; [|eauto]. exfalso. apply Hc. unfold dict_get in Ec. destruct (find _ config) as [[k u]|] eqn:Fd; [|discriminate].
    apply find_some in Fd as [Fd Fe]. apply String.eqb_eq in Fe. cbn in Fe. subst. apply (in_map fst) in Fd. exact Fd. }
  cbn [with_volts with_sys asys avolts aconf axms acurves apropose] in *. exists s, v. split; [exact E2|]. split; [exact F|]. split; [exact G|]. split; [rewrite F2, F1, K; symmetry; apply same_names, F|].
  intros m Hm. rewrite G2, G1, F1, K. assert (existsb (String.eqb m) (map ename (asys a)) = true) as ->.
  { apply existsb_exists. exists m. split; [exact Hm|apply String.eqb_refl]. }
  cbn [andb]. destruct (dict_get config m) as [w|] eqn:Ec.
  - assert (in_dict config m = true) as ->.
    { apply in_dict_iff. unfold dict_get in Ec. destruct (find _ config) as [[k u]|] eqn:Fd; [|discriminate]. apply find_some in Fd as [Fd Fe]. apply String.eqb_eq in Fe. cbn in Fe. subst. apply (in_map fst) in Fd. exact Fd. }
    cbn [negb]. unfold appended. destruct (dict_get (avolts a) m); reflexivity.
  - assert (in_dict config m = false) as ->.
    { destruct (in_dict config m) eqn:Ed; [|reflexivity]. apply in_dict_iff, get_some in Ed as [u Eu]. congruence. }
    cbn [negb]. unfold appended. destruct (dict_get (avolts a) m); reflexivity.
Qed.
Lemma set_volts_unsaved {X C} config (a : adjust X C) : good_config (map ename (asys a)) config ->
  exists s, set_volts config false a = (with_sys a s, Ok tt) /\ Forall2 same_but_dc s (asys a) /\ forall m, dc_of s m = configured config m (dc_of (asys a) m).
Proof. intros [N I]. unfold set_volts. destruct (set_all_spec config a N I) as (s & E & F & G). rewrite E. eauto. Qed.
(** ** sequences of calls *)
Definition Inv {X C} (names : list string) (j : nat) (a : adjust X C) : Prop :=
  map ename (asys a) = names /\ map fst (avolts a) = names /\ forall n, In n names -> exists h, dict_get (avolts a) n = Ok h /\ length h = j.
Lemma nonempty_last {A} (h : list A) : (0 < length h)%nat -> exists h' v, h = h' ++ [v].
Proof. intros H. destruct (exists_last (l := h)) as (h' & v & E); [intros ->; cbn in H; lia|]. eauto. Qed.
Lemma Inv_step {X C} names j config save (a : adjust X C) : NoDup names -> Inv names j a -> good_config names config ->
  (save = true -> j = 0%nat -> incl names (map fst config)) ->
  exists a', set_volts config save a = (a', Ok tt) /\ Inv names (if save then S j else j) a' /\
  (save = true -> (forall n, In n names -> j <> 0%nat -> exists h v, dict_get (avolts a) n = Ok (h ++ [v]) /\ dc_of (asys a) n = Some v) ->
   forall n, In n names -> exists h v, dict_get (avolts a') n = Ok (h ++ [v]) /\ dc_of (asys a') n = Some v).
Proof.
  intros ND (I1 & I2 & I3) G First. rewrite <- I1 in G. destruct save.
  - destruct (set_volts_saved config a G) as (s & v & E & F & D & K & V); [congruence|congruence| |].
    { rewrite I1. intros n Hn Hc. destruct (I3 n Hn) as (h & Eh & Lh). destruct (Nat.eq_dec j 0) as [->|Hj]; [exfalso; apply Hc; now apply First|].
      destruct (nonempty_last h) as (h' & w & ->); [lia|]. eauto. }
    eexists. split; [exact E|]. split.
    + split; [cbn [asys]; rewrite (same_names _ _ F); exact I1|]. split; [cbn [avolts]; rewrite K, (same_names _ _ F); exact I1|].
      intros n Hn. cbn [avolts]. rewrite V by now rewrite I1. destruct (I3 n Hn) as (h & Eh & Lh). rewrite Eh. destruct (dict_get config n) as [w|] eqn:Ec.
      * cbn [bind]. eexists. split; [reflexivity|]. rewrite app_length. cbn. lia.
      * assert (j <> 0%nat) as Hj. { intros ->. specialize (First eq_refl eq_refl n Hn). apply get_some in First as [u Eu]. congruence. }
        destruct (nonempty_last h) as (h' & w & ->); [lia|]. cbn [repeated]. rewrite py_last. cbn [bind]. eexists. split; [reflexivity|]. rewrite !app_length in *. cbn in *. lia.
    + intros _ Last n Hn. cbn [avolts asys]. rewrite V by now rewrite I1. rewrite D. unfold configured. destruct (I3 n Hn) as (h & Eh & Lh). destruct (dict_get config n) as [w|] eqn:Ec.
      * rewrite Eh. cbn [bind]. eauto.
      * assert (j <> 0%nat) as Hj. { intros ->. specialize (First eq_refl eq_refl n Hn). apply get_some in First as [u Eu]. congruence. }
        destruct (Last n Hn Hj) as (h' & w & E' & Dw). rewrite E'. cbn [repeated]. rewrite py_last. cbn [bind]. eauto.
  - destruct (set_volts_unsaved config a G) as (s & E & F & D). eexists. split; [exact E|]. split; [|discriminate].
    split; [cbn [with_sys asys]; rewrite (same_names _ _ F); exact I1|]. split; [exact I2|exact I3].
Qed.
Lemma calls_spec {X C} names l : NoDup names -> Forall (fun cs => good_config names (fst cs)) l -> forall j (a : adjust X C), Inv names j a ->
  (j = 0%nat -> first_complete names l) ->
  exists a', calls l a = (a', Ok tt) /\ Inv names (j + saved l) a' /\
  (Forall (fun cs => snd cs = true) l -> (forall n, In n names -> j <> 0%nat -> exists h v, dict_get (avolts a) n = Ok (h ++ [v]) /\ dc_of (asys a) n = Some v) ->
   forall n, In n names -> (j + saved l <> 0)%nat -> exists h v, dict_get (avolts a') n = Ok (h ++ [v]) /\ dc_of (asys a') n = Some v).
Proof.
  intros ND. induction l as [|[config save] l IH]; intros G j a I First.
  - exists a. unfold saved. cbn [filter length]. rewrite Nat.add_0_r. split; [reflexivity|]. split; [exact I|]. intros _ H. exact H.
  - inversion G as [|? ? G1 G2]; subst. cbn [fst] in G1. cbn [calls].
    destruct (Inv_step names j config save a ND I G1) as (a1 & E & I' & L1).
    { intros -> J. specialize (First J). unfold first_complete in First. cbn [filter snd] in First. exact First. }
    rewrite E. destruct (IH G2 (if save then S j else j) a1 I') as (a' & E' & I'' & L2).
    { destruct save; [lia|]. intros J. specialize (First J). exact First. }
    exists a'. split; [exact E'|]. split; [unfold saved in *; cbn [filter snd]; destruct save; cbn [length]; [rewrite Nat.add_succ_r|]; exact I''|].
    intros A Last n Hn Hj. inversion A as [|? ? A1 A2]; subst. cbn [snd] in A1. subst save. apply L2; [exact A2| |exact Hn|]; [|unfold saved in *; lia]. intros m Hm _. apply L1; auto.
Qed.
Lemma init_inv {X C} s conf (xms : list X) (curves : list C) : NoDup (map ename s) -> Inv (map ename s) 0 (adjust_init s conf xms curves).
Proof.
  intros N. unfold adjust_init.
  assert (K : forall l d, NoDup (map fst d ++ map ename l) -> (forall n, In n (map fst d) -> dict_get d n = Ok (@nil R)) ->
     let d' := fold_left (fun d e => dict_set d (ename e) []) l d in map fst d' = map fst d ++ map ename l /\ forall n, In n (map fst d') -> dict_get d' n = Ok []).
  { induction l as [|e l IH]; intros d Nd Hd; cbn [fold_left map]; cbv zeta; [rewrite app_nil_r; auto|].
    assert (~ In (ename e) (map fst d)) as Ne. { cbn [map] in Nd. apply NoDup_remove_2 in Nd. intros H. apply Nd. apply in_or_app. left. exact H. }
    destruct (IH (dict_set d (ename e) [])) as [A B].
    - rewrite set_new by exact Ne. rewrite map_app. cbn [map fst]. rewrite <- app_assoc. exact Nd.
    - intros n Hn. rewrite get_set. destruct (String.eqb_spec (ename e) n) as [|D]; [reflexivity|]. apply Hd. rewrite set_new, map_app in Hn by exact Ne. apply in_app_or in Hn as [Hn|[Hn|[]]]; [exact Hn|cbn in Hn; congruence].
    - cbv zeta in A, B. split; [|exact B]. rewrite A. rewrite set_new, map_app by exact Ne. cbn [map fst]. now rewrite <- app_assoc. }
  destruct (K s [] N) as [A B]; [intros n []|]. cbv zeta in A, B. cbn [map app] in A. split; [reflexivity|]. split; [exact A|]. cbn [avolts]. intros n Hn. exists []. split; [apply B; rewrite A; exact Hn|reflexivity].
Qed.
Lemma lengths {X C} s conf (xms : list X) (curves : list C) l : NoDup (map ename s) -> Forall (fun cs => good_config (map ename s) (fst cs)) l -> first_complete (map ename s) l ->
  exists a, calls l (adjust_init s conf xms curves) = (a, Ok tt) /\ map fst (avolts a) = map ename s /\ forall n h, history a n h -> length h = saved l.
Proof.
  intros N G F. destruct (calls_spec (map ename s) l N G 0%nat _ (init_inv s conf xms curves N) (fun _ => F)) as (a & E & (I1 & I2 & I3) & _).
  exists a. split; [exact E|]. split; [exact I2|]. intros n h H. unfold history in H. assert (In n (map ename s)) as Hn by (rewrite <- I2; apply (in_map fst) in H; exact H).
  apply get_in in H; [|rewrite I2; exact N]. destruct (I3 n Hn) as (h' & E' & L). rewrite E' in H. injection H as ->. exact L.
Qed.
Lemma values {X C} s conf (xms : list X) (curves : list C) l : NoDup (map ename s) -> Forall (fun cs => good_config (map ename s) (fst cs)) l -> first_complete (map ename s) l ->
  Forall (fun cs => snd cs = true) l -> l <> [] ->
  exists a, calls l (adjust_init s conf xms curves) = (a, Ok tt) /\ Forall2 (fun e n => ename e = n) (asys a) (map ename s) /\
  forall n h, history a n h -> exists h' v, h = h' ++ [v] /\ dc_of (asys a) n = Some v.
Proof.
  intros N G F A Ne. destruct (calls_spec (map ename s) l N G 0%nat _ (init_inv s conf xms curves N) (fun _ => F)) as (a & E & (I1 & I2 & I3) & L).
  exists a. split; [exact E|]. split.
  { rewrite <- I1. generalize (asys a). intros es. induction es; constructor; auto. }
  intros n h H. unfold history in H. assert (In n (map ename s)) as Hn by (rewrite <- I2; apply (in_map fst) in H; exact H). apply get_in in H; [|rewrite I2; exact N].
  destruct (L A) with (n := n) as (h' & v & E' & D); [intros m _ K; congruence|exact Hn| |].
  { destruct l as [|[c b] l]; [contradiction|]. inversion A as [|? ? A1 A2]; subst. cbn in A1. subst. unfold saved. cbn. lia. }
  rewrite E' in H. injection H as <-. eauto.
Qed.
Lemma repeat_fails {X C} config keys : forall a : adjust X C, incl keys (map fst (avolts a)) -> (forall n, In n keys -> in_dict config n = false -> dict_get (avolts a) n = Ok []) ->
  (exists n, In n keys /\ in_dict config n = false) -> repeat_last config keys a = (a, Raise IndexError).
Proof.
  induction keys as [|k keys IH]; intros a I H (n & Hn & Hd); [destruct Hn|]. cbn [repeat_last]. destruct (in_dict config k) eqn:E.
  - apply IH; [intros m Hm; apply I; right; exact Hm|intros m Hm; apply H; right; exact Hm|]. destruct Hn as [->|Hn]; [congruence|eauto].
  - rewrite (H k (or_introl eq_refl) E). reflexivity.
Qed.
Lemma partial_first {X C} s conf (xms : list X) (curves : list C) config n : NoDup (map ename s) -> good_config (map ename s) config ->
  In n (map ename s) -> ~ In n (map fst config) ->
  exists a, set_volts config true (adjust_init s conf xms curves) = (a, Raise IndexError) /\
  forall m v, In (m, v) config -> dc_of (asys a) m = Some v.
Proof.
  intros ND [N I] Hn Hc. set (a0 := adjust_init s conf xms curves). destruct (init_inv s conf xms curves ND) as (I1 & I2 & I3). fold a0 in I1, I2, I3.
  unfold set_volts. destruct (set_all_spec config a0 N) as (s' & E & F & G); [rewrite I1; exact I|]. rewrite E.
  destruct (append_all_spec config (with_sys a0 s') N) as (v1 & E1 & F1 & G1); [cbn [with_sys avolts]; rewrite I2; exact I|]. rewrite E1. cbn [with_sys avolts] in F1, G1. cbn [with_volts with_sys avolts].
  rewrite repeat_fails.
  - eexists. split; [reflexivity|]. cbn [with_volts with_sys asys]. intros m v Hm. rewrite G. unfold configured. apply get_in in Hm; [|exact N]. now rewrite Hm.
  - cbn [with_volts avolts]. apply incl_refl.
  - cbn [with_volts avolts]. intros m Hm Hd. rewrite F1, I2 in Hm. destruct (I3 m Hm) as (h & Eh & Lh). rewrite G1, Eh. destruct h; [|discriminate]. unfold appended. destruct (dict_get config m) eqn:Ec; [|reflexivity].
    exfalso. assert (in_dict config m = true); [|congruence]. apply in_dict_iff. apply get_in in Ec; [|exact N]. apply (in_map fst) in Ec. exact Ec.
  - exists n. split; [rewrite F1, I2; exact Hn|]. destruct (in_dict config n) eqn:E'; [|reflexivity]. apply in_dict_iff in E'. contradiction.
Qed.
