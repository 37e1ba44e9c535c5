(** C155 and C156: several threads at once. *)
From Coq Require Import Lra.
From Verif Require Import Base ModelExpr ModelField ModelThreads SpecThreads ProofThreads.
Open Scope R_scope.
Notation length := List.length.

(** C155: if no thread writes what another one uses, then under every
    schedule each thread reads and leaves what it would by itself. *)
Theorem C155_independent :
  forall ts0 m0, race_free ts0 -> forall schedule ts m, run schedule ts0 m0 = (ts, m) -> finished ts ->
  length ts = length ts0 /\
  (forall t a, nth_error ts0 t = Some a -> exists b, nth_error ts t = Some b /\ vars b = fst (alone (code a) (vars a) m0) /\
     forall c, uses (code a) c -> m c = snd (alone (code a) (vars a) m0) c) /\
  (forall c, (forall a, In a ts0 -> ~ writes (code a) c) -> m c = m0 c).
Proof. exact no_races. Qed.
(** in particular every with_voltages block restores its voltages *)
Theorem C155_restored :
  forall bs m0 schedule ts m, race_free (map block_thread bs) ->
  run schedule (map block_thread bs) m0 = (ts, m) -> finished ts ->
  forall b e, In b bs -> In e (b_members b) -> m (dc e) = m0 (dc e).
Proof. exact blocks_restored. Qed.
(** and the body of every block runs with the voltages given to it *)
Theorem C155_body :
  forall bs m0 schedule ts m, race_free (map block_thread bs) ->
  run schedule (map block_thread bs) m0 = (ts, m) -> finished ts ->
  forall t b, nth_error bs t = Some b -> NoDup (b_members b) ->
  exists th m1, nth_error ts t = Some th /\
  vars th = fst (alone (b_body b) (rev (map (fun e => m0 (dc e)) (b_members b))) m1) /\
  (forall i e v, nth_error (b_members b) i = Some e -> nth_error (b_voltages b) i = Some v -> m1 (dc e) = v) /\
  (forall c, (forall e, In e (firstn (length (b_voltages b)) (b_members b)) -> c <> dc e) -> m1 c = m0 c).
Proof. exact blocks_body. Qed.
(** two threads with blocks on one system: the temporary voltage of the first
    one stays for ever, and the second reads the voltage of the first *)
Theorem C155_refuted_same_system :
  exists schedule ts m,
  run schedule (map block_thread [Block [0%nat] [5] []; Block [0%nat] [7] [Load (dc 0)]]) (fun _ => 0) = (ts, m) /\ finished ts /\
  m (dc 0) = 5 /\ (exists th, nth_error ts 1 = Some th /\ hd 0 (vars th) = 0) /\
  (exists th, nth_error ts 1 = Some th /\ hd 0 (vars th) <> hd 0 (fst (alone (code (block_thread (Block [0%nat] [7] [Load (dc 0)]))) [] (fun _ => 0)))).
Proof.
  exists [0; 0; 1; 1; 0; 1; 1]%nat. eexists. eexists. split; [reflexivity|]. split; [|split; [|split]].
  - intros th [<-|[<-|[]]]; reflexivity.
  - cbn. lra.
  - eexists. split; [reflexivity|]. cbn. lra.
  - eexists. split; [reflexivity|]. cbn. lra.
Qed.
Print Assumptions C155_independent.
Print Assumptions C155_restored.
Print Assumptions C155_body.
Print Assumptions C155_refuted_same_system.
(** two systems: every schedule that runs to the end *)
Definition ex_155_blocks : list block := [Block [0; 1]%nat [5; 6] [Load (dc 0); Store (dc 1) (fun l => hd 0 l)]; Block [2]%nat [7] [Load (dc 2)]].
Example ex_155 : race_free (map block_thread ex_155_blocks) /\
  (exists schedule ts m, run schedule (map block_thread ex_155_blocks) (fun _ => 1) = (ts, m) /\ finished ts) /\
  forall schedule ts m, run schedule (map block_thread ex_155_blocks) (fun _ => 1) = (ts, m) -> finished ts -> m (dc 0) = 1 /\ m (dc 1) = 1 /\ m (dc 2) = 1.
Proof.
  assert (RF : race_free (map block_thread ex_155_blocks)).
  { assert (U0 : forall c, uses (with_voltages_code [0; 1]%nat [5; 6] [Load (dc 0); Store (dc 1) (fun l => hd 0 l)]) c -> c = dc 0 \/ c = dc 1).
    { intros c (i & Hi & <-). cbn in Hi. repeat (destruct Hi as [<-|Hi]; [cbn; auto|]). destruct Hi. }
    assert (U1 : forall c, uses (with_voltages_code [2]%nat [7] [Load (dc 2)]) c -> c = dc 2).
    { intros c (i & Hi & <-). cbn in Hi. repeat (destruct Hi as [<-|Hi]; [cbn; auto|]). destruct Hi. }
    intros t t' a b c N Ea Eb Hw Hu. apply writes_uses in Hw.
    destruct t as [|[|t]]; cbn in Ea; try (destruct t; discriminate); injection Ea as <-; (destruct t' as [|[|t']]; cbn in Eb; try (destruct t'; discriminate); injection Eb as <-); try congruence; cbn [block_thread code b_members b_voltages b_body] in *.
    - apply U0 in Hw. apply U1 in Hu. subst c. destruct Hw; discriminate.
    - apply U0 in Hu. apply U1 in Hw. subst c. destruct Hu; discriminate. }
  split; [exact RF|]. split.
  - exists [0; 1; 0; 1; 0; 1; 0; 1; 0; 0; 0; 0]%nat. eexists. eexists. split; [reflexivity|]. intros th [<-|[<-|[]]]; reflexivity.
  - intros schedule ts m E F. pose proof (C155_restored ex_155_blocks (fun _ => 1) schedule ts m RF E F) as H.
    split; [|split]; [apply (H _ 0%nat (or_introl eq_refl))|apply (H _ 1%nat (or_introl eq_refl))|apply (H _ 2%nat (or_intror (or_introl eq_refl)))]; cbn; auto.
Qed.
(** the body of the second block reads 7, the voltage given to it *)
Example ex_155_body : forall schedule ts m, run schedule (map block_thread ex_155_blocks) (fun _ => 1) = (ts, m) -> finished ts ->
  exists th, nth_error ts 1 = Some th /\ vars th = [7; 1].
Proof.
  intros schedule ts m E F. destruct (C155_body ex_155_blocks (fun _ => 1) schedule ts m (proj1 ex_155) E F 1%nat _ eq_refl) as (th & m1 & H & V & A & _).
  { constructor; [intros []|constructor]. }
  exists th. split; [exact H|]. rewrite V. cbn. f_equal. exact (A 0%nat 2%nat 7 eq_refl eq_refl).
Qed.

(** C156: any number of threads in the compiled functions at once, each with
    its own output array, under every schedule: each array is what the call
    makes of it by itself. *)
Theorem C156_own_arrays :
  forall (jobs : list (nat * job)) m0 schedule ts m, NoDup (map fst jobs) ->
  run schedule (map (fun oj => Thread (job_code (fst oj) (snd oj)) []) jobs) m0 = (ts, m) -> finished ts ->
  forall o jb n w, In (o, jb) jobs -> contents m o n w = job_result jb (contents m0 o n w).
Proof. exact jobs_result. Qed.
(** one thread is the special case of the loops of expressions.py *)
Theorem C156_same_loops :
  forall o jb l m n w, contents (snd (alone (job_code o jb) l m)) o n w = job_result jb (contents m o n w).
Proof. exact job_alone. Qed.
(** two threads adding to one array can lose a contribution *)
Definition unit_job : job := Points [P3 0 0 1] [((0, 0), 1)] (2 * PI) 0 0 0.
Lemma unit_job_code o : job_code o unit_job = add_code o 0 0 [1 * (1 * (2 * PI) / (2 * PI * sqrt 1 ^ 3))].
Proof.
  assert (I : images 0 = [0%Z]) by (vm_compute; reflexivity).
  unfold job_code, unit_job, loop_code, point_incs. rewrite I. cbn [flat_map map app length seq at_ nth fst snd px py pz point_expr].
  rewrite !app_nil_r. f_equal. unfold point_expr0. cbv zeta.
  replace (1 + 2 * 0 * 0) with 1 by ring. replace ((0 - 0) ^ 2 + (0 - 0) ^ 2 + 1 ^ 2) with 1 by ring. reflexivity.
Qed.
Lemma unit_job_inc : 1 * (1 * (2 * PI) / (2 * PI * sqrt 1 ^ 3)) = 1.
Proof. rewrite sqrt_1. pose proof PI_RGT_0. field. lra. Qed.
Theorem C156_refuted_shared :
  exists jb schedule ts m,
  run schedule [Thread (job_code 0 jb) []; Thread (job_code 0 jb) []] (fun _ => 0) = (ts, m) /\ finished ts /\
  contents m 0 1 1 <> job_result jb (job_result jb (contents (fun _ => 0) 0 1 1)).
Proof.
  exists unit_job, [0; 1; 0; 1]%nat. rewrite unit_job_code, unit_job_inc. eexists. eexists. split; [reflexivity|]. split.
  - intros th [<-|[<-|[]]]; reflexivity.
  - rewrite <- !(C156_same_loops 0 unit_job []). rewrite unit_job_code, unit_job_inc. cbn. unfold put. cbn. intros [= H]. lra.
Qed.
Print Assumptions C156_own_arrays.
Print Assumptions C156_same_loops.
Print Assumptions C156_refuted_shared.
(** two threads in arrays 0 and 1, under every schedule *)
Example ex_156 : (exists schedule ts m, run schedule (map (fun oj => Thread (job_code (fst oj) (snd oj)) []) [(0%nat, unit_job); (1%nat, unit_job)]) (fun _ => 0) = (ts, m) /\ finished ts) /\
  forall schedule ts m, run schedule (map (fun oj => Thread (job_code (fst oj) (snd oj)) []) [(0%nat, unit_job); (1%nat, unit_job)]) (fun _ => 0) = (ts, m) ->
  finished ts -> contents m 0 1 1 = [[0 + 1]] /\ contents m 1 1 1 = [[0 + 1]].
Proof.
  split.
  - exists [0; 1; 0; 1]%nat. cbn [map fst snd]. rewrite !unit_job_code. eexists. eexists. split; [reflexivity|]. intros th [<-|[<-|[]]]; reflexivity.
  - intros schedule ts m E F.
    assert (ND : NoDup (map fst [(0%nat, unit_job); (1%nat, unit_job)])).
    { cbn. constructor; [intros [H|[]]; discriminate|]. constructor; [intros []|constructor]. }
    pose proof (C156_own_arrays _ (fun _ => 0) schedule ts m ND E F) as H. split.
    + rewrite (H 0%nat unit_job 1%nat 1%nat) by (cbn; auto). rewrite <- (C156_same_loops 0 unit_job []), unit_job_code, unit_job_inc. reflexivity.
    + rewrite (H 1%nat unit_job 1%nat 1%nat) by (cbn; auto). rewrite <- (C156_same_loops 1 unit_job []), unit_job_code, unit_job_inc. reflexivity.
Qed.
