(** Property theorems C01-C04. *)
From Verif Require Import Base ModelVolt SpecVolt ProofVolt.
Open Scope R_scope.

(** C01: leaving a with_voltages block undoes it, for every body. *)
Theorem C01_with_voltages_restores :
  forall (s : sysst) (dcs rfs : option (viter R)) (body : prog),
  opt_assignable (List.length (members s)) dcs ->
  opt_assignable (List.length (members s)) rfs ->
  exists s_in,
    members s_in = members s /\
    (forall l, e_name (store s_in l) = e_name (store s l) /\
      (not_written (members s) (values dcs) l ->
         e_dc (store s_in l) = e_dc (store s l)) /\
      (forall v, written_last (members s) (values dcs) l v ->
         e_dc (store s_in l) = v) /\
      (not_written (members s) (values rfs) l ->
         e_rf (store s_in l) = e_rf (store s l)) /\
      (forall v, written_last (members s) (values rfs) l v ->
         e_rf (store s_in l) = v)) /\
    forall s_out e, body s_in = (s_out, e) -> members s_out = members s ->
    exists s', with_voltages dcs rfs body s = (s', e) /\
      members s' = members s /\
      forall l,
        e_name (store s' l) = e_name (store s_out l) /\
        (given dcs -> In l (members s) -> e_dc (store s' l) = e_dc (store s l)) /\
        (~ given dcs \/ ~ In l (members s) ->
           e_dc (store s' l) = e_dc (store s_out l)) /\
        (given rfs -> In l (members s) -> e_rf (store s' l) = e_rf (store s l)) /\
        (~ given rfs \/ ~ In l (members s) ->
           e_rf (store s' l) = e_rf (store s_out l)).
Proof. exact with_voltages_restores. Qed.
Print Assumptions C01_with_voltages_restores.

(** C01: any nesting depth. *)
Theorem C01_nested_with_voltages :
  forall (body : prog) levels (s : sysst),
  (forall t, members (fst (body t)) = members t) ->
  (forall lv, In lv levels ->
     opt_assignable (List.length (members s)) (fst lv) /\
     opt_assignable (List.length (members s)) (snd lv)) ->
  let s' := fst (nested levels body s) in
  members s' = members s /\
  forall l, In l (members s) ->
    ((exists lv, In lv levels /\ given (fst lv)) ->
       e_dc (store s' l) = e_dc (store s l)) /\
    ((exists lv, In lv levels /\ given (snd lv)) ->
       e_rf (store s' l) = e_rf (store s l)).
Proof. exact nested_restores. Qed.
Print Assumptions C01_nested_with_voltages.

(** Two electrodes, one of them listed twice; a short dcs list, rfs with a
    raising tail that is never reached; a body that writes and raises. *)
Definition ex_state : sysst :=
  {| members := [0; 1; 0]%nat;
     store := fun l => {| e_name := "a"; e_dc := INR l; e_rf := 1 |} |}.
Definition ex_body : prog := fun s =>
  ({| members := members s;
      store := upd (store s) 1%nat {| e_name := "b"; e_dc := 7; e_rf := 7 |} |},
   Some ValueError).
Example C01_hypotheses_met :
  opt_assignable (List.length (members ex_state)) (Some (Iter [3; 4] None)) /\
  opt_assignable (List.length (members ex_state))
    (Some (Iter [1; 2; 3] (Some KeyError))) /\
  (forall t, members (fst (ex_body t)) = members t).
Proof. cbn. repeat split; auto. Qed.
Example C01_dc_restored_concretely :
  e_dc (store (fst (with_voltages (Some (Iter [3; 4] None)) None ex_body ex_state)) 1%nat) = 1.
Proof. reflexivity. Qed.

(** C02: the property is false as stated: a dcs argument that fails to be
    assigned, with rfs also given, leaves the system with the new rfs. *)
Theorem C02_failed_setup_refuted :
  exists (s : sysst) dcs rfs l, In l (members s) /\
  forall body : prog, exists s' e,
    with_voltages dcs rfs body s = (s', Some e) /\
    e_rf (store s' l) <> e_rf (store s l).
Proof.
  exists {| members := [0%nat]; store := fun _ => {| e_name := ""; e_dc := 0; e_rf := 0 |} |},
    (Some NotIterable), (Some (Iter [1] None)), 0%nat.
  split; [now left|]. intros body. do 2 eexists. split; [reflexivity|]. exact R1_neq_R0.
Qed.
Print Assumptions C02_failed_setup_refuted.

(** C02, exact behaviour in that case: the rfs requested are assigned. *)
Theorem C02_failed_setup_leaks_rf :
  forall (s : sysst) (rs : list R) (body : prog),
  exists s', with_voltages (Some NotIterable) (Some (Iter rs None)) body s
               = (s', Some TypeError) /\
    assigned e_rf e_dc e_name (members s) rs (store s) (store s').
Proof. exact failed_setup_leaks. Qed.
Print Assumptions C02_failed_setup_leaks_rf.

(** C02, the part that holds: every other way of failing is undone.  Missing:
    failing dcs together with given rfs (refuted above). *)
Theorem C02_failed_setup_partial :
  forall (s : sysst) dcs rfs (body : prog),
  ((exists v e, dcs = Some v /\ snd (set_dcs s v) = Some e) /\ rfs = None) \/
  (opt_assignable (List.length (members s)) dcs /\
   exists v e, rfs = Some v /\ snd (set_rfs s v) = Some e) ->
  exists s' e, with_voltages dcs rfs body s = (s', Some e) /\
    members s' = members s /\ forall l, store s' l = store s l.
Proof. exact failed_setup_untouched. Qed.
Print Assumptions C02_failed_setup_partial.
Example C02_hypotheses_met :
  snd (set_dcs ex_state (Iter [1] (Some ValueError))) = Some ValueError /\
  snd (set_rfs ex_state NotIterable) = Some TypeError.
Proof. split; reflexivity. Qed.

(** C03: assignment is positional and touches nothing else. *)
Theorem C03_set_dcs_positional : forall s v,
  assignable (List.length (members s)) v ->
  exists s', set_dcs s v = (s', None) /\ members s' = members s /\
    assigned e_dc e_rf e_name (members s) (values (Some v)) (store s) (store s').
Proof. exact set_dcs_spec. Qed.
Print Assumptions C03_set_dcs_positional.
Theorem C03_set_rfs_positional : forall s v,
  assignable (List.length (members s)) v ->
  exists s', set_rfs s v = (s', None) /\ members s' = members s /\
    assigned e_rf e_dc e_name (members s) (values (Some v)) (store s) (store s').
Proof. exact set_rfs_spec. Qed.
Print Assumptions C03_set_rfs_positional.
Theorem C03_set_names_positional : forall s v,
  assignable (List.length (members s)) v ->
  exists s', set_names s v = (s', None) /\ members s' = members s /\
    assigned e_name e_dc e_rf (members s) (values (Some v)) (store s) (store s').
Proof. exact set_names_spec. Qed.
Print Assumptions C03_set_names_positional.

(** C03: reading back what was written. *)
Theorem C03_get_set_dcs : forall s v s', NoDup (members s) ->
  assignable (List.length (members s)) v -> set_dcs s v = (s', None) ->
  forall i, (i < List.length (members s))%nat ->
  nth_error (get_dcs s') i =
    match nth_error (values (Some v)) i with
    | Some x => Some x
    | None => nth_error (get_dcs s) i
    end.
Proof. exact get_set_dcs. Qed.
Print Assumptions C03_get_set_dcs.
Theorem C03_get_set_rfs : forall s v s', NoDup (members s) ->
  assignable (List.length (members s)) v -> set_rfs s v = (s', None) ->
  forall i, (i < List.length (members s))%nat ->
  nth_error (get_rfs s') i =
    match nth_error (values (Some v)) i with
    | Some x => Some x
    | None => nth_error (get_rfs s) i
    end.
Proof. exact get_set_rfs. Qed.
Print Assumptions C03_get_set_rfs.
Theorem C03_get_set_names : forall s v s', NoDup (members s) ->
  assignable (List.length (members s)) v -> set_names s v = (s', None) ->
  forall i, (i < List.length (members s))%nat ->
  nth_error (get_names s') i =
    match nth_error (values (Some v)) i with
    | Some x => Some x
    | None => nth_error (get_names s) i
    end.
Proof. exact get_set_names. Qed.
Print Assumptions C03_get_set_names.

(** C03: writing what was read changes nothing. *)
Theorem C03_set_get_dcs : forall s,
  exists s', set_dcs s (Iter (get_dcs s) None) = (s', None) /\
  members s' = members s /\ forall l, store s' l = store s l.
Proof. exact set_get_dcs. Qed.
Print Assumptions C03_set_get_dcs.
Theorem C03_set_get_rfs_names : forall s,
  (exists s', set_rfs s (Iter (get_rfs s) None) = (s', None) /\ members s' = members s /\ forall l, store s' l = store s l) /\
  (exists s', set_names s (Iter (get_names s) None) = (s', None) /\ members s' = members s /\ forall l, store s' l = store s l).
Proof. exact rewrite_all. Qed.
Print Assumptions C03_set_get_rfs_names.
(** C03: a full second write wins. *)
Theorem C03_second_write_wins : forall s (v : viter R) vs f (n : viter string) ns,
  (List.length (members s) <= List.length vs)%nat -> (List.length (members s) <= List.length ns)%nat ->
  (forall l, store (fst (set_dcs (fst (set_dcs s v)) (Iter vs f))) l = store (fst (set_dcs s (Iter vs f))) l) /\
  (forall l, store (fst (set_rfs (fst (set_rfs s v)) (Iter vs f))) l = store (fst (set_rfs s (Iter vs f))) l) /\
  (forall l, store (fst (set_names (fst (set_names s n)) (Iter ns f))) l = store (fst (set_names s (Iter ns f))) l).
Proof. exact second_wins. Qed.
Print Assumptions C03_second_write_wins.
(** C03: a value that cannot be iterated is refused with TypeError and changes
    nothing; an iterable that fails too early raises its own exception after
    the values it delivered are assigned. *)
Theorem C03_refused : forall s (v : viter R) (n : viter string),
  (~ assignable (List.length (members s)) v ->
   (exists s', set_dcs s v = (s', Some (refusal v)) /\ members s' = members s /\
      assigned e_dc e_rf e_name (members s) (values (Some v)) (store s) (store s')) /\
   (exists s', set_rfs s v = (s', Some (refusal v)) /\ members s' = members s /\
      assigned e_rf e_dc e_name (members s) (values (Some v)) (store s) (store s'))) /\
  (~ assignable (List.length (members s)) n ->
   exists s', set_names s n = (s', Some (refusal n)) /\ members s' = members s /\
      assigned e_name e_dc e_rf (members s) (values (Some n)) (store s) (store s')).
Proof. exact refused_all. Qed.
Print Assumptions C03_refused.
Example C03_refused_met : ~ assignable 2 (Iter [1] (Some KeyError)) /\ ~ @assignable R 2 NotIterable.
Proof. cbn. split; [intros [H|H]; [discriminate|lia]|tauto]. Qed.
Example C03_hypotheses_met :
  NoDup [3; 5]%nat /\ assignable 2 (Iter [1] None) /\
  assignable 2 (Iter [1; 2; 3] (Some KeyError)).
Proof.
  repeat split; cbn; auto; repeat constructor; cbn; intuition discriminate.
Qed.

(** C04: lookup. *)
Theorem C04_lookup_by_name : forall (s : sysst) (n : string),
  match getitem s (KStr n) with
  | Ok (Some l) => exists i, nth_error (members s) i = Some l /\
      e_name (store s l) = n /\
      forall j l', (j < i)%nat -> nth_error (members s) j = Some l' ->
        e_name (store s l') <> n
  | Ok None => forall l, In l (members s) -> e_name (store s l) <> n
  | Raise _ => False
  end.
Proof. intros s n. exact (find_name_spec (store s) n (members s)). Qed.
Print Assumptions C04_lookup_by_name.
Theorem C04_lookup_by_index : forall (s : sysst) (i : Z),
  let n := Z.of_nat (List.length (members s)) in
  match getitem s (KInt i) with
  | Ok (Some l) => (-n <= i < n)%Z /\
      nth_error (members s) (Z.to_nat (if (i <? 0)%Z then i + n else i)%Z) = Some l
  | Ok None => False
  | Raise e => e = IndexError /\ ~ (-n <= i < n)%Z
  end.
Proof.
  intros s i n. pose proof (py_index_spec (members s) i) as H. cbn in H.
  unfold getitem, bind. destruct (py_index (members s) i); exact H.
Qed.
Print Assumptions C04_lookup_by_index.
(** C04: a key of any other type gives None, it does not raise. *)
Theorem C04_lookup_by_other : forall (s : sysst) k,
  (forall i, k <> KInt i) -> (forall n, k <> KStr n) -> getitem s k = Ok None.
Proof. intros s [i|n|] Hi Hn; [now destruct (Hi i)|now destruct (Hn n)|reflexivity]. Qed.
Print Assumptions C04_lookup_by_other.
Example C04_concrete :
  getitem ex_state (KInt (-2)) = Ok (Some 1%nat) /\
  getitem ex_state (KStr "a") = Ok (Some 0%nat) /\
  getitem ex_state (KStr "q") = Ok None /\
  getitem ex_state (KInt 3) = Raise IndexError.
Proof. repeat split. Qed.
