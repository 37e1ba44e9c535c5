(** A static analysis of the programs of ModelRefs and its soundness. *)
From Coq Require Import List String Arith Bool Lia.
From Verif Require Import ModelRefs SpecRefs.
Import ListNotations.
Open Scope string_scope.
Open Scope list_scope.

(** ** The analysis *)

(** What is known of a variable: NULL; one reference owned through it; an object
    the caller holds; another name of an owned object; a block; nothing. *)
Inductive aval := ANull | AOwn | ABor | AAli (w : string) | ABuf | ADead.
Record astate := A { av : string -> aval; agil : bool; aerr : bool }.

Definition vars : list string :=
  ["matrix0"; "matrix1"; "result"; "direction"; "point"; "normal"; "perspective"; "pseudobj"; "boolobj"; "origin";
   "v0"; "v1"; "scalingobj"; "usesvdobj"; "buffer"; "lengths"; "angles"; "axes"; "item"; "bytes"; "matrix"; "axis";
   "quaternion"; "quaternion0"; "quaternion1"; "arand"; "object"; "center"; "o"; "data"; "out"; "oout"; "dit"; "oit";
   "diagonal"; "subdiagonal"].

Definition known (v : string) : bool := existsb (String.eqb v) vars.
Definition aset (a : astate) (v : string) (k : aval) : astate :=
  A (fun u => if String.eqb u v then k
              else match av a u with AAli w => if String.eqb w v then ADead else AAli w | x => x end)
    (agil a) (aerr a).
Definition aset_err (a : astate) : astate := A (av a) (agil a) true.
Definition aset_gil (a : astate) (g : bool) : astate := A (av a) g (aerr a).
Definition overwritable (a : astate) (v : string) : bool :=
  known v && match av a v with AOwn | ABuf => false | _ => true end.
Definition nothing_owned (leak : bool) (a : astate) : bool :=
  forallb (fun v => match av a v with AOwn => leak && String.eqb v "bytes" | ABuf => false | _ => true end) vars.
Definition leak_there (leak : bool) (a : astate) : bool :=
  negb leak || match av a "bytes" with AOwn => true | _ => false end.

Fixpoint safe (crash leak : bool) (ks : list kind) (p : prog) (a : astate) {struct p} : bool :=
  let go := safe crash leak ks in
  match p with
  | Given i p q => match nth i ks KMissing with KMissing => go q a | _ => go p a end
  | IfNone i p q => match nth i ks KMissing with KNone => go p a | _ => go q a end
  | IfText i p q => match nth i ks KMissing with KText => go p a | _ => go q a end
  | Leftover p q =>
      if existsb (fun k => match k with KMissing => true | _ => false end) ks then go p a && go q a else go p a
  | Choose p q => go p a && go q a
  | IfNull v p q =>
      match av a v with ANull => go p a | ADead => false | AAli w => match av a w with AOwn => go q a | _ => false end | _ => go q a end
  | Borrow v i p =>
      match nth i ks KMissing with KMissing => crash | _ => overwritable a v && go p (aset a v ABor) end
  | FromAny v i p =>
      agil a && match nth i ks KMissing with
                | KMissing => crash
                | _ => overwritable a v && go p (aset (aset_err a) v ANull) && go p (aset a v AOwn)
                end
  | Create v p => agil a && overwritable a v && go p (aset (aset_err a) v ANull) && go p (aset a v AOwn)
  | Malloc v p => agil a && overwritable a v && go p (aset a v ANull) && go p (aset a v ABuf)
  | Copy v w p =>
      overwritable a v && negb (String.eqb v w) &&
      match av a w with ANull => go p (aset a v ANull) | AOwn => go p (aset a v (AAli w)) | _ => false end
  | SetNull v p => overwritable a v && go p (aset a v ANull)
  | Use v p =>
      match av a v with
      | AOwn | ABor | ABuf => known v && go p a
      | AAli w => known w && match av a w with AOwn => go p a | _ => false end
      | ANull => crash
      | ADead => false
      end
  | Incref v p => agil a && known v && match av a v with ABor => go p (aset a v AOwn) | ANull => crash | _ => false end
  | Decref v p => agil a && known v && match av a v with AOwn => go p (aset a v ADead) | ANull => crash | _ => false end
  | Xdecref v p => agil a && known v && match av a v with AOwn => go p (aset a v ADead) | ANull => go p a | _ => false end
  | Free v p => agil a && known v && match av a v with ABuf => go p (aset a v ADead) | ANull => go p a | _ => false end
  | SetErr p => agil a && go p (aset_err a)
  | MayErr p => agil a && go p (aset_err a) && go p a
  | Save p => agil a && go p (aset_gil a false)
  | Restore p => if agil a then crash else go p (aset_gil a true)
  | RetNull => agil a && aerr a && nothing_owned leak a
  | RetArr v =>
      agil a && known v && (negb leak || negb (String.eqb v "bytes")) &&
      match av a v with
      | AOwn => nothing_owned leak (aset a v ADead) && leak_there leak (aset a v ADead)
      | _ => false
      end
  | RetFresh => agil a && negb (aerr a) && nothing_owned leak a && leak_there leak a
  | RetSingle o => (o <? 3)%nat && agil a && negb (aerr a) && nothing_owned leak a && leak_there leak a
  | RetPair v w =>
      agil a && negb (aerr a) && known v && known w && negb (String.eqb v w) && negb leak &&
      match av a v, av a w with
      | AOwn, AOwn => nothing_owned leak (aset (aset a v ADead) w ADead)
      | _, _ => false
      end
  end.

(** All ways of passing n parameters. *)
Fixpoint patterns (text : bool) (n : nat) : list (list kind) :=
  match n with
  | 0 => [[]]
  | S m => flat_map (fun ks => [KMissing :: ks; KNone :: ks; KOther :: ks] ++ (if text then [KText :: ks] else [])) (patterns text m)
  end.
Definition entry : astate := A (fun _ => ANull) true false.

(** ** Soundness *)
Definition own (s : state) (a : astate) (x : nat) (v : string) : nat :=
  match av a v, env s v with AOwn, Ref y => if (x =? y)%nat then 1 else 0 | _, _ => 0 end.
Definition ownb (s : state) (a : astate) (x : nat) (v : string) : nat :=
  match av a v, env s v with ABuf, Buf y => if (x =? y)%nat then 1 else 0 | _, _ => 0 end.
Definition sumv (f : string -> nat) : nat := list_sum (map f vars).

Lemma vars_nodup : NoDup vars.
Proof.
  assert (E : nodup string_dec vars = vars) by (vm_compute; reflexivity).
  rewrite <- E. apply NoDup_nodup.
Qed.
Lemma known_in v : known v = true -> In v vars.
Proof.
  unfold known. intros H. apply existsb_exists in H. destruct H as (u & Hu & E).
  apply String.eqb_eq in E. subst. exact Hu.
Qed.

Lemma list_sum_cons x l : list_sum (x :: l) = x + list_sum l.
Proof. reflexivity. Qed.
Lemma sum_same (f g : string -> nat) l : (forall u, In u l -> f u = g u) -> list_sum (map f l) = list_sum (map g l).
Proof.
  induction l as [|u l IH]; intros H; [reflexivity|]. cbn [map]. rewrite !list_sum_cons.
  rewrite (H u) by (left; reflexivity). f_equal. apply IH. intros w Hw. apply H. right. exact Hw.
Qed.
Lemma sum_one (f g : string -> nat) v l : NoDup l -> In v l -> (forall u, u <> v -> f u = g u) ->
  list_sum (map f l) + g v = list_sum (map g l) + f v.
Proof.
  induction l as [|u l IH]; intros N I H; [destruct I|]. cbn [map]. rewrite !list_sum_cons. inversion N as [|? ? Hu Hl]; subst.
  destruct (string_dec u v) as [->|D].
  - rewrite (sum_same f g l); [lia|]. intros w Hw. apply H. intros ->. contradiction.
  - destruct I as [->|I]; [congruence|]. specialize (IH Hl I H). rewrite (H u D). lia.
Qed.
Lemma sumv_one f g v : known v = true -> (forall u, u <> v -> f u = g u) -> sumv f + g v = sumv g + f v.
Proof. intros K H. apply sum_one; [exact vars_nodup|apply known_in, K|exact H]. Qed.
Lemma sumv_same f g : (forall u, f u = g u) -> sumv f = sumv g.
Proof. intros H. apply sum_same. intros u _. apply H. Qed.
Lemma list_sum_ge (f : string -> nat) v l : In v l -> f v <= list_sum (map f l).
Proof.
  induction l as [|u l IH]; intros I; [destruct I|]. cbn [map]. rewrite list_sum_cons.
  destruct I as [->|I]; [lia|]. specialize (IH I). lia.
Qed.
Lemma sumv_ge f v : known v = true -> f v <= sumv f.
Proof. intros K. apply list_sum_ge, known_in, K. Qed.

(** What the analysis says of one variable. *)
Definition fits (base : nat -> nat) (k : aval) (q : ptr) : Prop :=
  match k with
  | ANull => q = Null
  | AOwn => exists o, q = Ref o
  | ABor => exists o, q = Ref o /\ 0 < base o
  | ABuf => exists b, q = Buf b
  | AAli _ => True
  | ADead => True
  end.

Record inv (h : heap) (s : state) (a : astate) : Prop := {
  i_count : forall x, count s x = h_count h x + sumv (own s a x);
  i_blocks : forall x, blocks s x = h_blocks h x + sumv (ownb s a x);
  i_fits : forall v, fits (h_count h) (av a v) (env s v);
  i_alias : forall v w, av a v = AAli w -> env s v = env s w /\ av a w = AOwn;
  i_next : forall x, next s <= x -> count s x = 0 /\ blocks s x = 0;
  i_gil : gil s = agil a;
  i_err : err s = aerr a }.

Definition ownk (k : aval) (q : ptr) (x : nat) : nat :=
  match k, q with AOwn, Ref y => if (x =? y)%nat then 1 else 0 | _, _ => 0 end.
Definition ownbk (k : aval) (q : ptr) (x : nat) : nat :=
  match k, q with ABuf, Buf y => if (x =? y)%nat then 1 else 0 | _, _ => 0 end.

(** The general step: one variable and the counts change together. *)
Lemma inv_step h s a s' v k q :
  inv h s a -> known v = true ->
  (forall u, env s' u = if String.eqb u v then q else env s u) ->
  (forall x, count s' x + own s a x v = count s x + ownk k q x) ->
  (forall x, blocks s' x + ownb s a x v = blocks s x + ownbk k q x) ->
  fits (h_count h) k q ->
  (forall w, k = AAli w -> w <> v /\ q = env s w /\ av a w = AOwn) ->
  (forall x, next s' <= x -> count s' x = 0 /\ blocks s' x = 0) ->
  forall g e, gil s' = g -> err s' = e -> inv h s' (A (av (aset a v k)) g e).
Proof.
  intros I K E C B F L N g e Hg He.
  assert (O1 : forall x, sumv (own s' (A (av (aset a v k)) g e) x) + own s a x v = sumv (own s a x) + ownk k q x).
  { intros x. assert (E1 : own s' (A (av (aset a v k)) g e) x v = ownk k q x).
    { unfold own, ownk, aset. cbn [av]. rewrite E, !String.eqb_refl. reflexivity. }
    rewrite <- E1. apply sumv_one; [exact K|]. intros u D. unfold own, aset. cbn [av]. rewrite E.
    apply String.eqb_neq in D. rewrite D. destruct (av a u); try reflexivity. destruct (String.eqb w v); reflexivity. }
  assert (O2 : forall x, sumv (ownb s' (A (av (aset a v k)) g e) x) + ownb s a x v = sumv (ownb s a x) + ownbk k q x).
  { intros x. assert (E1 : ownb s' (A (av (aset a v k)) g e) x v = ownbk k q x).
    { unfold ownb, ownbk, aset. cbn [av]. rewrite E, !String.eqb_refl. reflexivity. }
    rewrite <- E1. apply sumv_one; [exact K|]. intros u D. unfold ownb, aset. cbn [av]. rewrite E.
    apply String.eqb_neq in D. rewrite D. destruct (av a u); try reflexivity. destruct (String.eqb w v); reflexivity. }
  destruct I as [I1 I2 I3 I4 I5 I6 I7]. constructor.
  - intros x. specialize (O1 x). specialize (C x). specialize (I1 x). lia.
  - intros x. specialize (O2 x). specialize (B x). specialize (I2 x). lia.
  - intros u. cbn [av aset]. rewrite E. destruct (String.eqb u v); [exact F|]. specialize (I3 u).
    destruct (av a u); try exact I3. destruct (String.eqb w v); exact I.
  - intros u w. cbn [av aset]. rewrite !E. destruct (String.eqb u v) eqn:D.
    + intros ->. destruct (L w eq_refl) as (W & -> & W3). apply String.eqb_neq in W. rewrite W, W3. split; reflexivity.
    + destruct (av a u) as [| | |z| |] eqn:Z; try discriminate. destruct (String.eqb z v) eqn:Y; [discriminate|].
      intros X. injection X as <-. rewrite Y. destruct (I4 u z Z) as (J1 & J2). rewrite J2. split; [exact J1|reflexivity].
  - exact N.
  - exact Hg.
  - exact He.
Qed.

Definition good (crash leak : bool) (h : heap) (out : outcome) : Prop :=
  match out with
  | Crash => crash = true
  | Done r s =>
      orderly r s /\ (forall b, blocks s b = h_blocks h b) /\
      (forall o items, r = Obj o items -> items <> [] -> leak = false /\ h_count h o = 0 /\ ~ In o items) /\
      (forall x, next s <= x -> count s x = 0 /\ blocks s x = 0) /\
      exists o l, l <= 1 /\ (leak = false -> l = 0) /\ (leak = true -> r <> NULL -> l = 1) /\
        forall x, count s x = h_count h x + given r x + (if (x =? o)%nat then l else 0)
  end.

Lemma sumv_zero f : (forall u, In u vars -> f u = 0) -> sumv f = 0.
Proof.
  unfold sumv. induction vars as [|u l IH]; intros H; [reflexivity|]. cbn [map]. rewrite list_sum_cons.
  rewrite (H u) by (left; reflexivity). rewrite IH; [reflexivity|]. intros w Hw. apply H. right. exact Hw.
Qed.

Lemma left_over leak h s a : inv h s a -> nothing_owned leak a = true ->
  (forall b, blocks s b = h_blocks h b) /\
  exists o l, l <= 1 /\ (leak = false -> l = 0) /\ (leak_there leak a = true -> leak = true -> l = 1) /\
    forall x, count s x = h_count h x + (if (x =? o)%nat then l else 0).
Proof.
  intros I H. unfold nothing_owned in H. rewrite forallb_forall in H. split.
  - intros b. rewrite (i_blocks _ _ _ I), sumv_zero; [lia|]. intros u Hu. unfold ownb. specialize (H u Hu).
    destruct (av a u); try reflexivity. discriminate H.
  - destruct leak.
    + assert (S1 : forall x, sumv (own s a x) = own s a x "bytes").
      { intros x. pose proof (sumv_one (own s a x) (fun u => if String.eqb u "bytes" then own s a x "bytes" else 0) "bytes" eq_refl) as E.
        cbn beta in E. rewrite String.eqb_refl in E.
        assert (Z : sumv (fun u : string => if String.eqb u "bytes" then own s a x "bytes" else 0) = own s a x "bytes").
        { pose proof (sumv_one (fun u => if String.eqb u "bytes" then own s a x "bytes" else 0) (fun _ => 0) "bytes" eq_refl) as E2.
          cbn beta in E2. rewrite String.eqb_refl in E2.
          rewrite (sumv_zero (fun _ => 0)) in E2 by reflexivity. rewrite Nat.add_0_r in E2. cbn [Nat.add] in E2. apply E2.
          intros u D. apply String.eqb_neq in D. rewrite D. reflexivity. }
        (* only the variables of the list matter *)
        assert (W : sumv (own s a x) = sumv (fun u => if String.eqb u "bytes" then own s a x "bytes" else 0)).
        { apply sum_same. intros u Hu. destruct (String.eqb u "bytes") eqn:D.
          - apply String.eqb_eq in D. subst. reflexivity.
          - unfold own. specialize (H u Hu). destruct (av a u); try reflexivity. cbn in H. rewrite D in H. discriminate H. }
        rewrite W. exact Z. }
      destruct (av a "bytes") eqn:B; try (exists 0, 0; repeat split; try lia;
        [unfold leak_there; rewrite B; cbn; discriminate
        |intros x; rewrite (i_count _ _ _ I), S1; unfold own; rewrite B; destruct (x =? 0)%nat; reflexivity]).
      pose proof (i_fits _ _ _ I "bytes") as F. rewrite B in F. destruct F as (o & F).
      exists o, 1. repeat split; try lia. intros x. rewrite (i_count _ _ _ I), S1. unfold own. rewrite B, F. reflexivity.
    + exists 0, 0. repeat split; try lia.
      intros x. rewrite (i_count _ _ _ I), sumv_zero; [destruct (x =? 0)%nat; lia|]. intros u Hu. unfold own. specialize (H u Hu).
      destruct (av a u); try reflexivity. discriminate H.
Qed.

Lemma own_none a v s x : match av a v with AOwn | ABuf => false | _ => true end = true -> own s a x v = 0 /\ ownb s a x v = 0.
Proof. intros H. unfold own, ownb. destruct (av a v); try discriminate H; split; reflexivity. Qed.

Lemma over a v : overwritable a v = true -> known v = true /\ match av a v with AOwn | ABuf => false | _ => true end = true.
Proof. intros H. apply andb_prop in H. exact H. Qed.

Lemma inv_eta h s a : inv h s (A (av a) (agil a) (aerr a)) -> inv h s a.
Proof. destruct a. exact (fun x => x). Qed.

Ltac opn H := repeat match type of H with (_ && _)%bool = true => let H1 := fresh H in apply andb_prop in H; destruct H as [H1 H]; opn H1 end.

Lemma eqb_case (x y : nat) : (x =? y)%nat = true /\ x = y \/ (x =? y)%nat = false /\ x <> y.
Proof. destruct (x =? y)%nat eqn:E; [left; split; [reflexivity|apply Nat.eqb_eq, E]|right; split; [reflexivity|apply Nat.eqb_neq, E]]. Qed.

(** A step that only ticks, sets the exception or the lock. *)
Lemma inv_flags h s a s' g e : inv h s a -> count s' = count s -> blocks s' = blocks s -> env s' = env s -> next s' = next s ->
  gil s' = g -> err s' = e -> inv h s' (A (av a) g e).
Proof.
  intros [I1 I2 I3 I4 I5 I6 I7] C B E N G R. constructor; cbn [av agil aerr].
  - intros x. rewrite C, I1. f_equal. apply sumv_same. intros u. unfold own. cbn [av]. rewrite E. reflexivity.
  - intros x. rewrite B, I2. f_equal. apply sumv_same. intros u. unfold ownb. cbn [av]. rewrite E. reflexivity.
  - intros v. rewrite E. apply I3.
  - intros v w. rewrite E. apply I4.
  - rewrite N, C, B. exact I5.
  - exact G.
  - exact R.
Qed.

Lemma inv_tick h s a : inv h s a -> inv h (ticked s) a.
Proof. intros I. apply inv_eta. apply (inv_flags h s a); try reflexivity; [exact I|apply (i_gil _ _ _ I)|apply (i_err _ _ _ I)]. Qed.

(** Setting a variable that owns nothing. *)
Lemma inv_set h s a v k q : inv h s a -> overwritable a v = true -> ownk k q = (fun _ => 0) -> ownbk k q = (fun _ => 0) ->
  fits (h_count h) k q -> (forall w, k = AAli w -> w <> v /\ q = env s w /\ av a w = AOwn) ->
  inv h (set_var s v q) (aset a v k).
Proof.
  intros I O K1 K2 F L. apply over in O. destruct O as [O1 O2].
  apply inv_eta. apply (inv_step h s a (set_var s v q) v k q I O1); try exact F; try exact L.
  - intros u. reflexivity.
  - intros x. destruct (own_none a v s x O2) as [-> _]. rewrite K1. reflexivity.
  - intros x. destruct (own_none a v s x O2) as [_ ->]. rewrite K2. reflexivity.
  - apply (i_next _ _ _ I).
  - apply (i_gil _ _ _ I).
  - apply (i_err _ _ _ I).
Qed.

Lemma inv_set_null h s a v : inv h s a -> overwritable a v = true -> inv h (set_var s v Null) (aset a v ANull).
Proof. intros I O. apply inv_set; try assumption; try reflexivity. intros w W; discriminate W. Qed.

Lemma inv_set_err_null h s a v : inv h s a -> overwritable a v = true -> inv h (set_var (set_err (ticked s)) v Null) (aset (aset_err a) v ANull).
Proof.
  intros I O. apply inv_set_null.
  - apply (inv_flags h s a); try reflexivity; [exact I|apply (i_gil _ _ _ I)].
  - exact O.
Qed.

Lemma inv_fresh h s a v : inv h s a -> overwritable a v = true -> inv h (set_var (fresh (ticked s)) v (Ref (next s))) (aset a v AOwn).
Proof.
  intros I O. apply over in O. destruct O as [O1 O2].
  destruct (i_next _ _ _ I (next s) (le_n _)) as [Z1 Z2].
  apply inv_eta. apply (inv_step h s a _ v AOwn (Ref (next s)) I O1).
  - intros u. reflexivity.
  - intros x. destruct (own_none a v s x O2) as [-> _]. cbn [count set_var fresh ticked ownk next]. unfold at_.
    destruct (eqb_case x (next s)) as [[-> ->]|[-> D]]; lia.
  - intros x. destruct (own_none a v s x O2) as [_ ->]. reflexivity.
  - eexists. reflexivity.
  - intros w W; discriminate W.
  - intros x. cbn [next count blocks set_var fresh ticked]. intros Hx. unfold at_.
    destruct (eqb_case x (next s)) as [[-> ->]|[-> D]]; [lia|]. apply (i_next _ _ _ I). lia.
  - apply (i_gil _ _ _ I).
  - apply (i_err _ _ _ I).
Qed.

Lemma inv_block h s a v : inv h s a -> overwritable a v = true -> inv h (set_var (fresh_block (ticked s)) v (Buf (next s))) (aset a v ABuf).
Proof.
  intros I O. apply over in O. destruct O as [O1 O2].
  destruct (i_next _ _ _ I (next s) (le_n _)) as [Z1 Z2].
  apply inv_eta. apply (inv_step h s a _ v ABuf (Buf (next s)) I O1).
  - intros u. reflexivity.
  - intros x. destruct (own_none a v s x O2) as [-> _]. reflexivity.
  - intros x. destruct (own_none a v s x O2) as [_ ->]. cbn [blocks set_var fresh_block ticked ownbk next]. unfold at_.
    destruct (eqb_case x (next s)) as [[-> ->]|[-> D]]; lia.
  - eexists. reflexivity.
  - intros w W; discriminate W.
  - intros x. cbn [next count blocks set_var fresh_block ticked]. intros Hx. unfold at_.
    destruct (eqb_case x (next s)) as [[-> ->]|[-> D]]; [lia|]. apply (i_next _ _ _ I). lia.
  - apply (i_gil _ _ _ I).
  - apply (i_err _ _ _ I).
Qed.

(** One more reference, through a variable that owned none. *)
Lemma inv_take h s a v o : inv h s a -> overwritable a v = true -> 0 < h_count h o ->
  inv h (set_var (set_count (ticked s) o (S (count s o))) v (Ref o)) (aset a v AOwn).
Proof.
  intros I O P. apply over in O. destruct O as [O1 O2].
  assert (Q : 0 < count s o) by (rewrite (i_count _ _ _ I); lia).
  apply inv_eta. apply (inv_step h s a _ v AOwn (Ref o) I O1).
  - intros u. reflexivity.
  - intros x. destruct (own_none a v s x O2) as [-> _]. cbn [count set_var set_count ticked ownk]. unfold at_.
    destruct (eqb_case x o) as [[-> ->]|[-> D]]; lia.
  - intros x. destruct (own_none a v s x O2) as [_ ->]. reflexivity.
  - eexists. reflexivity.
  - intros w W; discriminate W.
  - intros x. cbn [next count blocks set_var set_count ticked]. intros Hx. unfold at_. destruct (i_next _ _ _ I x Hx) as [Z1 Z2].
    destruct (eqb_case x o) as [[-> ->]|[-> D]]; lia.
  - apply (i_gil _ _ _ I).
  - apply (i_err _ _ _ I).
Qed.

Lemma env_same s v : (forall u, env s u = if String.eqb u v then env s v else env s u).
Proof. intros u. destruct (String.eqb u v) eqn:E; [apply String.eqb_eq in E; subst|]; reflexivity. Qed.

Lemma inv_incref h s a v o n : inv h s a -> known v = true -> av a v = ABor -> env s v = Ref o -> count s o = S n ->
  inv h (set_count s o (S (S n))) (aset a v AOwn).
Proof.
  intros I K B E C.
  apply inv_eta. apply (inv_step h s a _ v AOwn (Ref o) I K).
  - intros u. cbn [env set_count set_blocks]. rewrite <- E. apply env_same.
  - intros x. unfold own. rewrite B. cbn [count set_count ownk]. unfold at_.
    destruct (eqb_case x o) as [[-> ->]|[-> D]]; lia.
  - intros x. unfold ownb. rewrite B. reflexivity.
  - eexists. reflexivity.
  - intros w W; discriminate W.
  - intros x. cbn [next count blocks set_count]. intros Hx. unfold at_. destruct (i_next _ _ _ I x Hx) as [Z1 Z2].
    destruct (eqb_case x o) as [[-> ->]|[-> D]]; lia.
  - apply (i_gil _ _ _ I).
  - apply (i_err _ _ _ I).
Qed.

Lemma own_alive h s a v o : inv h s a -> known v = true -> av a v = AOwn -> env s v = Ref o -> exists n, count s o = S n.
Proof.
  intros I K B E. pose proof (sumv_ge (own s a o) v K) as G. unfold own at 1 in G. rewrite B, E, Nat.eqb_refl in G.
  pose proof (i_count _ _ _ I o) as C. destruct (count s o) as [|n]; [lia|]. exists n. reflexivity.
Qed.
Lemma buf_alive h s a v o : inv h s a -> known v = true -> av a v = ABuf -> env s v = Buf o -> exists n, blocks s o = S n.
Proof.
  intros I K B E. pose proof (sumv_ge (ownb s a o) v K) as G. unfold ownb at 1 in G. rewrite B, E, Nat.eqb_refl in G.
  pose proof (i_blocks _ _ _ I o) as C. destruct (blocks s o) as [|n]; [lia|]. exists n. reflexivity.
Qed.

Lemma inv_decref h s a v o n : inv h s a -> known v = true -> av a v = AOwn -> env s v = Ref o -> count s o = S n ->
  inv h (set_count s o n) (aset a v ADead).
Proof.
  intros I K B E C.
  apply inv_eta. apply (inv_step h s a _ v ADead (Ref o) I K).
  - intros u. cbn [env set_count set_blocks]. rewrite <- E. apply env_same.
  - intros x. unfold own. rewrite B, E. cbn [count set_count ownk]. unfold at_.
    destruct (eqb_case x o) as [[-> ->]|[-> D]]; lia.
  - intros x. unfold ownb. rewrite B. reflexivity.
  - exact Logic.I.
  - intros w W; discriminate W.
  - intros x. cbn [next count blocks set_count]. intros Hx. unfold at_. destruct (i_next _ _ _ I x Hx) as [Z1 Z2].
    destruct (eqb_case x o) as [[-> ->]|[-> D]]; lia.
  - apply (i_gil _ _ _ I).
  - apply (i_err _ _ _ I).
Qed.

Lemma inv_free h s a v o n : inv h s a -> known v = true -> av a v = ABuf -> env s v = Buf o -> blocks s o = S n ->
  inv h (set_blocks s o n) (aset a v ADead).
Proof.
  intros I K B E C.
  apply inv_eta. apply (inv_step h s a _ v ADead (Buf o) I K).
  - intros u. cbn [env set_count set_blocks]. rewrite <- E. apply env_same.
  - intros x. unfold own. rewrite B. reflexivity.
  - intros x. unfold ownb. rewrite B, E. cbn [blocks set_blocks ownbk]. unfold at_.
    destruct (eqb_case x o) as [[-> ->]|[-> D]]; lia.
  - exact Logic.I.
  - intros w W; discriminate W.
  - intros x. cbn [next count blocks set_blocks]. intros Hx. unfold at_. destruct (i_next _ _ _ I x Hx) as [Z1 Z2].
    destruct (eqb_case x o) as [[-> ->]|[-> D]]; lia.
  - apply (i_gil _ _ _ I).
  - apply (i_err _ _ _ I).
Qed.

Lemma nth_held h args i : held h args -> match nth i args Missing with Missing => True | Arg k o => k <> KMissing /\ 0 < h_count h o end.
Proof.
  intros H. destruct (nth_in_or_default i args Missing) as [J| ->]; [|exact Logic.I].
  destruct (nth i args Missing) as [|k o] eqn:E; [exact Logic.I|]. apply H, J.
Qed.
Lemma nth_kinds args i : nth i (map kind_of args) KMissing = kind_of (nth i args Missing).
Proof. change KMissing with (kind_of Missing). apply map_nth. Qed.
Lemma missing_kinds args : existsb missing args = existsb (fun k => match k with KMissing => true | _ => false end) (map kind_of args).
Proof. induction args as [|x l IH]; [reflexivity|]. cbn [existsb map]. rewrite IH. reflexivity. Qed.

Lemma good_end crash leak h s a r g e :
  inv h s (A (av a) g e) -> nothing_owned leak a = true -> g = true -> (r = NULL <-> e = true) -> (r <> NULL -> leak_there leak a = true) ->
  (r = NULL -> good crash leak h (Done r s)).
Proof.
  intros I N G R L ->. destruct (left_over leak h s _ I N) as (B & o & l & L1 & L2 & L3 & C). cbn [good].
  split; [|split; [exact B|split; [intros o' it E; discriminate E|split; [exact (i_next _ _ _ I)|]]]].
  - split; [rewrite (i_gil _ _ _ I); exact G|]. rewrite (i_err _ _ _ I). exact R.
  - exists o, l. repeat split; try assumption; [intros _ E; congruence|]. intros x. rewrite C. cbn [given]. lia.
Qed.

(** Leaving with an object one reference to which is added to a settled state. *)
Lemma good_obj crash leak h s a s' o' :
  inv h s a -> nothing_owned leak a = true -> leak_there leak a = true -> agil a = true ->
  (forall x, count s' x = count s x + (if (x =? o')%nat then 1 else 0)) -> blocks s' = blocks s -> gil s' = true -> err s' = false ->
  next s <= next s' -> o' < next s' ->
  good crash leak h (Done (Obj o' []) s').
Proof.
  intros I N L G C B G' E' X1 X2. destruct (left_over leak h s _ I N) as (Bs & o & l & L1 & L2 & L3 & C1). cbn [good].
  split; [|split; [|split; [|split]]].
  - split; [exact G'|]. rewrite E'. split; discriminate.
  - intros b. rewrite B. apply Bs.
  - intros o1 it X Y. injection X as <- <-. congruence.
  - intros x Hx. rewrite C, B. destruct (i_next _ _ _ I x ltac:(lia)) as [-> ->]. destruct (eqb_case x o') as [[-> ->]|[-> D]]; lia.
  - exists o, l. repeat split; try assumption; [intros J _; exact (L3 L J)|]. intros x. rewrite C, C1. cbn [given count_occ]. lia.
Qed.

Lemma good_fresh crash leak h s a : inv h s a -> nothing_owned leak a = true -> leak_there leak a = true -> agil a = true -> aerr a = false ->
  good crash leak h (Done (Obj (next s) []) (fresh (ticked s))).
Proof.
  intros I N L G E. apply (good_obj crash leak h s a); try assumption; try reflexivity.
  - intros x. cbn [count fresh ticked next]. unfold at_. destruct (i_next _ _ _ I (next s) (le_n _)) as [Z _].
    destruct (eqb_case x (next s)) as [[-> ->]|[-> D]]; lia.
  - cbn. rewrite (i_gil _ _ _ I). exact G.
  - cbn. rewrite (i_err _ _ _ I). exact E.
  - cbn. lia.
  - cbn. lia.
Qed.

Lemma alive_below h s a o : inv h s a -> 0 < count s o -> o < next s.
Proof. intros I P. destruct (le_lt_dec (next s) o) as [L|L]; [|exact L]. destruct (i_next _ _ _ I o L). lia. Qed.

Theorem sound crash leak h args : (forall o, o < 3 -> 0 < h_count h o) -> held h args -> forall p orc s a,
  inv h s a -> safe crash leak (map kind_of args) p a = true -> good crash leak h (exec args orc p s).
Proof.
  intros Hs Hh. induction p as
    [i p IHp q IHq|i p IHp q IHq|i p IHp q IHq|p IHp q IHq|p IHp q IHq|v p IHp q IHq|v i p IHp|v i p IHp|v p IHp|v p IHp
    |v w p IHp|v p IHp|v p IHp|v p IHp|v p IHp|v p IHp|v p IHp|p IHp|p IHp|p IHp|p IHp| |v| |o|v w]; intros orc s a I H;
    cbn [safe exec] in *; pose proof (i_gil _ _ _ I) as Ig; pose proof (i_err _ _ _ I) as Ie.
  - rewrite nth_kinds in H. unfold missing. destruct (kind_of (nth i args Missing)); eauto.
  - rewrite nth_kinds in H. destruct (kind_of (nth i args Missing)); eauto.
  - rewrite nth_kinds in H. destruct (kind_of (nth i args Missing)); eauto.
  - rewrite <- missing_kinds in H. destruct (existsb missing args); [|eauto]. opn H.
    destruct (orc (tick s)); [eapply IHq|eapply IHp]; try eassumption; apply inv_tick, I.
  - opn H. destruct (orc (tick s)); [eapply IHp|eapply IHq]; try eassumption; apply inv_tick, I.
  - pose proof (i_fits _ _ _ I v) as F. destruct (av a v) as [| | |w| |] eqn:V; cbn [fits] in F.
    + rewrite F. eauto.
    + destruct F as (o & F). rewrite F. eauto.
    + destruct F as (o & F & _). rewrite F. eauto.
    + destruct (i_alias _ _ _ I v w V) as (E & W). rewrite W in H. pose proof (i_fits _ _ _ I w) as F2. rewrite W in F2. destruct F2 as (o & F2).
      rewrite E, F2. eauto.
    + destruct F as (o & F). rewrite F. eauto.
    + discriminate H.
  - rewrite nth_kinds in H. pose proof (nth_held h args i Hh) as N. destruct (nth i args Missing) as [|k o]; [exact H|].
    cbn [kind_of] in H. destruct N as (N1 & N2). destruct k; [congruence| | |]; opn H;
      (eapply IHp; [|eassumption]; apply inv_set; try assumption; try reflexivity; [exists o; split; [reflexivity|exact N2]|intros w W; discriminate W]).
  - apply andb_prop in H. destruct H as [G H]. rewrite Ig, G.
    rewrite nth_kinds in H. pose proof (nth_held h args i Hh) as N. destruct (nth i args Missing) as [|k o]; [exact H|].
    cbn [kind_of] in H. destruct N as (N1 & N2).
    assert (H' : (overwritable a v && safe crash leak (map kind_of args) p (aset (aset_err a) v ANull) && safe crash leak (map kind_of args) p (aset a v AOwn))%bool = true)
      by (destruct k; [congruence|exact H|exact H|exact H]). clear H. apply andb_prop in H'. destruct H' as [H' S2]. apply andb_prop in H'. destruct H' as [O S1].
    destruct (orc (tick s)) as [|[|n]].
    + eapply IHp; [|exact S1]. apply inv_set_err_null; assumption.
    + eapply IHp; [|exact S2]. apply inv_take; assumption.
    + eapply IHp; [|exact S2]. apply inv_fresh; assumption.
  - apply andb_prop in H. destruct H as [H S2]. apply andb_prop in H. destruct H as [H S1]. apply andb_prop in H. destruct H as [G O]. rewrite Ig, G.
    destruct (orc (tick s)) as [|n].
    + eapply IHp; [|exact S1]. apply inv_set_err_null; assumption.
    + eapply IHp; [|exact S2]. apply inv_fresh; assumption.
  - apply andb_prop in H. destruct H as [H S2]. apply andb_prop in H. destruct H as [H S1]. apply andb_prop in H. destruct H as [G O]. rewrite Ig, G.
    destruct (orc (tick s)) as [|n].
    + eapply IHp; [|exact S1]. apply inv_set_null; [apply inv_tick, I|exact O].
    + eapply IHp; [|exact S2]. apply inv_block; assumption.
  - apply andb_prop in H. destruct H as [H S1]. apply andb_prop in H. destruct H as [O D]. apply negb_true_iff in D. apply String.eqb_neq in D.
    pose proof (i_fits _ _ _ I w) as F. destruct (av a w) as [| | |z| |] eqn:W; try discriminate S1; cbn [fits] in F.
    + rewrite F. eapply IHp; [|exact S1]. apply inv_set_null; assumption.
    + eapply IHp; [|exact S1]. apply inv_set; try assumption; try reflexivity.
      intros z Z. injection Z as <-. split; [congruence|]. split; [reflexivity|exact W].
  - apply andb_prop in H. destruct H as [O S1]. eapply IHp; [|exact S1]. apply inv_set_null; assumption.
  - pose proof (i_fits _ _ _ I v) as F. destruct (av a v) as [| | |w| |] eqn:V; cbn [fits] in F.
    + rewrite F. exact H.
    + apply andb_prop in H. destruct H as [K S1]. destruct F as (o & F). rewrite F. destruct (own_alive h s a v o I K V F) as (n & ->). eauto.
    + apply andb_prop in H. destruct H as [K S1]. destruct F as (o & F & P). rewrite F.
      pose proof (i_count _ _ _ I o) as C. destruct (count s o) as [|n]; [lia|]. eauto.
    + apply andb_prop in H. destruct H as [K S1]. destruct (i_alias _ _ _ I v w V) as (E & W). rewrite W in S1.
      pose proof (i_fits _ _ _ I w) as F2. rewrite W in F2. destruct F2 as (o & F2).
      rewrite E, F2. destruct (own_alive h s a w o I K W F2) as (n & ->). eauto.
    + apply andb_prop in H. destruct H as [K S1]. destruct F as (o & F). rewrite F. destruct (buf_alive h s a v o I K V F) as (n & ->). eauto.
    + discriminate H.
  - apply andb_prop in H. destruct H as [H S1]. apply andb_prop in H. destruct H as [G K]. rewrite Ig, G.
    pose proof (i_fits _ _ _ I v) as F. destruct (av a v) as [| | |w| |] eqn:V; cbn [fits] in F; try discriminate S1.
    + rewrite F. exact S1.
    + destruct F as (o & F & P). rewrite F. pose proof (i_count _ _ _ I o) as C. destruct (count s o) as [|n] eqn:E; [lia|].
      eapply IHp; [|exact S1]. apply inv_incref; assumption.
  - apply andb_prop in H. destruct H as [H S1]. apply andb_prop in H. destruct H as [G K]. rewrite Ig, G.
    pose proof (i_fits _ _ _ I v) as F. destruct (av a v) as [| | |w| |] eqn:V; cbn [fits] in F; try discriminate S1.
    + rewrite F. exact S1.
    + destruct F as (o & F). rewrite F. cbn [release]. destruct (own_alive h s a v o I K V F) as (n & E). rewrite E.
      eapply IHp; [|exact S1]. apply inv_decref; assumption.
  - apply andb_prop in H. destruct H as [H S1]. apply andb_prop in H. destruct H as [G K]. rewrite Ig, G.
    pose proof (i_fits _ _ _ I v) as F. destruct (av a v) as [| | |w| |] eqn:V; cbn [fits] in F; try discriminate S1.
    + rewrite F. eauto.
    + destruct F as (o & F). rewrite F. cbn [release]. destruct (own_alive h s a v o I K V F) as (n & E). rewrite E.
      eapply IHp; [|exact S1]. apply inv_decref; assumption.
  - apply andb_prop in H. destruct H as [H S1]. apply andb_prop in H. destruct H as [G K]. rewrite Ig, G.
    pose proof (i_fits _ _ _ I v) as F. destruct (av a v) as [| | |w| |] eqn:V; cbn [fits] in F; try discriminate S1.
    + rewrite F. eauto.
    + destruct F as (o & F). rewrite F. destruct (buf_alive h s a v o I K V F) as (n & E). rewrite E.
      eapply IHp; [|exact S1]. apply inv_free; assumption.
  - apply andb_prop in H. destruct H as [G S1]. rewrite Ig, G. eapply IHp; [|exact S1]. apply (inv_flags h s a); try reflexivity; assumption.
  - apply andb_prop in H. destruct H as [H S2]. apply andb_prop in H. destruct H as [G S1]. rewrite Ig, G. destruct (orc (tick s)).
    + eapply IHp; [|exact S1]. apply (inv_flags h s a); try reflexivity; assumption.
    + eapply IHp; [|exact S2]. apply inv_tick, I.
  - apply andb_prop in H. destruct H as [G S1]. rewrite Ig, G. eapply IHp; [|exact S1]. apply (inv_flags h s a); try reflexivity; assumption.
  - rewrite Ig. destruct (agil a); [exact H|]. eapply IHp; [|exact H]. apply (inv_flags h s a); try reflexivity; assumption.
  - apply andb_prop in H. destruct H as [H N]. apply andb_prop in H. destruct H as [G E].
    apply (good_end crash leak h s a NULL (agil a) (aerr a)); try reflexivity; try assumption.
    + destruct a; exact I.
    + rewrite E. split; reflexivity.
    + congruence.
  - apply andb_prop in H. destruct H as [H S1]. apply andb_prop in H. destruct H as [H B]. apply andb_prop in H. destruct H as [G K]. rewrite Ig, G.
    pose proof (i_fits _ _ _ I v) as F. destruct (av a v) as [| | |w| |] eqn:V; cbn [fits] in F; try discriminate S1.
    destruct F as (o & F). rewrite F. destruct (own_alive h s a v o I K V F) as (n & E). rewrite E.
    apply andb_prop in S1. destruct S1 as [N L]. pose proof (inv_decref h s a v o n I K V F E) as J. destruct (err s) eqn:R.
    + apply (good_end crash leak h _ (aset a v ADead) NULL (agil a) (aerr a)); try reflexivity; try assumption.
      * rewrite <- Ie. split; reflexivity.
      * congruence.
    + destruct (orc (tick s)) as [|[|m]].
      * apply (good_end crash leak h _ (aset a v ADead) NULL (agil a) true); try reflexivity; try assumption.
        -- apply (inv_flags h (set_count s o n) (aset a v ADead)); try reflexivity; assumption.
        -- split; reflexivity.
        -- congruence.
      * change (next s) with (next (set_count s o n)). change (fresh (set_count (ticked s) o n)) with (fresh (ticked (set_count s o n))).
        apply (good_fresh crash leak h _ (aset a v ADead)); try assumption. cbn. congruence.
      * apply (good_obj crash leak h (set_count s o n) (aset a v ADead)); try assumption; try reflexivity.
        -- intros x. cbn [count set_count ticked]. unfold at_. destruct (eqb_case x o) as [[-> ->]|[-> D]]; lia.
        -- cbn. congruence.
        -- apply (alive_below h s a o I). lia.
  - apply andb_prop in H. destruct H as [H L]. apply andb_prop in H. destruct H as [H N]. apply andb_prop in H. destruct H as [G E]. rewrite Ig, G.
    apply negb_true_iff in E. destruct (orc (tick s)) as [|m].
    + apply (good_end crash leak h _ a NULL (agil a) true); try reflexivity; try assumption.
      * apply (inv_flags h s a); try reflexivity; assumption.
      * split; reflexivity.
      * congruence.
    + apply (good_fresh crash leak h s a); assumption.
  - apply andb_prop in H. destruct H as [H L]. apply andb_prop in H. destruct H as [H N]. apply andb_prop in H. destruct H as [G E]. apply andb_prop in G. destruct G as [T G]. apply Nat.ltb_lt in T. rewrite Ig, G.
    apply negb_true_iff in E. apply (good_obj crash leak h s a); try assumption; try reflexivity; try (cbn; congruence).
    2: { apply (alive_below h s a o I). rewrite (i_count _ _ _ I). specialize (Hs o T). lia. }
    intros x. cbn [count set_count]. unfold at_. destruct (eqb_case x o) as [[-> ->]|[-> D]]; lia.
  - apply andb_prop in H. destruct H as [H S1]. apply andb_prop in H. destruct H as [H Lk]. apply andb_prop in H. destruct H as [H D].
    apply andb_prop in H. destruct H as [H K2]. apply andb_prop in H. destruct H as [H K1]. apply andb_prop in H. destruct H as [G E]. rewrite Ig, G.
    apply negb_true_iff in D. apply negb_true_iff in Lk. subst leak. apply negb_true_iff in E.
    destruct (av a v) eqn:V; try discriminate S1. destruct (av a w) eqn:W; try discriminate S1.
    pose proof (i_fits _ _ _ I v) as Fv. rewrite V in Fv. destruct Fv as (x & Fv). pose proof (i_fits _ _ _ I w) as Fw. rewrite W in Fw. destruct Fw as (y & Fw).
    rewrite Fv, Fw. destruct (own_alive h s a v x I K1 V Fv) as (n & Ex). destruct (own_alive h s a w y I K2 W Fw) as (m & Ey).
    pose proof (inv_decref h s a v x n I K1 V Fv Ex) as J.
    assert (W' : av (aset a v ADead) w = AOwn) by (cbn [av aset]; rewrite String.eqb_sym, D, W; reflexivity).
    destruct (own_alive h _ _ w y J K2 W' Fw) as (m' & Ey').
    pose proof (inv_decref h _ _ w y m' J K2 W' Fw Ey') as J2.
    destruct (orc (tick s)) as [|c].
    + cbn [release]. cbn [count set_err ticked]. rewrite Ex. cbn [count set_count set_err ticked]. cbn [count set_count] in Ey'. rewrite Ey'.
      apply (good_end crash false h _ (aset (aset a v ADead) w ADead) NULL (agil a) true); try reflexivity; try assumption.
      * apply (inv_flags h _ _ _ _ _ J2); try reflexivity; assumption.
      * split; reflexivity.
    + rewrite Ex, Ey. destruct (left_over false h _ _ J2 S1) as (B & o & l & L1 & L2 & L3 & C). specialize (L2 eq_refl). subst l.
      destruct (i_next _ _ _ I (next s) (le_n _)) as [Z _].
      assert (Nx : x <> next s) by (intros Q; rewrite Q in Ex; congruence).
      assert (Ny : y <> next s) by (intros Q; rewrite Q in Ey; congruence).
      cbn [good]. split; [|split; [exact B|split; [|split]]].
      * split; [cbn; congruence|]. cbn. rewrite Ie, E. split; discriminate.
      * intros o' it X _. injection X as <- <-. pose proof (i_count _ _ _ I (next s)). split; [reflexivity|]. split; [lia|]. cbn [In]. intros [Q|[Q|[]]]; congruence.
      * intros z Hz. cbn [next fresh ticked] in Hz. cbn [count blocks fresh ticked]. unfold at_. cbn [next ticked].
        destruct (eqb_case z (next s)) as [[-> ->]|[-> D1]]; [lia|]. apply (i_next _ _ _ I). lia.
      * exists 0, 0. repeat split; try lia; try congruence. intros z. specialize (C z). cbn [count set_count] in C, Ey'. unfold at_ in C, Ey'.
        cbn [given count fresh ticked count_occ next]. unfold at_.
        destruct (Nat.eq_dec x z) as [Q1|Q1]; destruct (Nat.eq_dec y z) as [Q2|Q2];
          destruct (eqb_case z (next s)) as [[E1 T0]|[E1 T0]]; destruct (eqb_case z y) as [[E2 T1]|[E2 T1]];
          destruct (eqb_case z x) as [[E3 T2]|[E3 T2]]; destruct (eqb_case y x) as [[E4 T3]|[E4 T3]];
          rewrite ?E1, ?E2, ?E3; rewrite ?E2, ?E3, ?E4 in C; rewrite ?E4 in Ey';
          destruct (z =? 0)%nat; destruct (z =? o)%nat; try lia;
          try congruence; subst; try congruence; try lia.
Qed.
