From Verif Require Import Base ModelField ModelGrid SpecGrid ProofGrid ModelLoad SpecLoad.
Open Scope R_scope.
Notation length := List.length.

Lemma load_loop_used dims l : forall pot b,
  load_loop dims l pot b = load_loop dims (filter relevant l) pot b.
Proof.
  induction l as [|a l IH]; intros pot b; [reflexivity|]. cbn [load_loop filter]. unfold relevant at 1.
  destruct (String.eqb (va_name a) "potential" || String.eqb (va_name a) "field")%bool eqn:E; cbn [negb].
  - cbn [load_loop]. rewrite E. cbn [negb].
    destruct (contains "_pondpot" (va_name a)); [apply IH|]. destruct (load_array dims a); [cbn; apply IH|reflexivity].
  - destruct (contains "_pondpot" (va_name a)); apply IH.
Qed.
Lemma relevant_names a : relevant a = true -> va_name a = "potential"%string \/ va_name a = "field"%string.
Proof. unfold relevant. rewrite Bool.orb_true_iff, !String.eqb_eq. tauto. Qed.
Lemma load_relevant dims a l pot b : relevant a = true ->
  load_loop dims (a :: l) pot b = bind (load_array dims a) (fun d => load_loop dims l (pot ++ [d]) true).
Proof.
  intros H. cbn [load_loop]. pose proof H as H'. unfold relevant in H'. rewrite H'. cbn [negb].
  destruct (relevant_names a H) as [E|E]; rewrite E; reflexivity.
Qed.
Lemma used_relevant f a : In a (used f) -> relevant a = true.
Proof. intros H. apply filter_In in H. tauto. Qed.

Lemma irrelevant_ignored isfile read read' fil m :
  vdims (read fil) = vdims (read' fil) -> vorigin (read fil) = vorigin (read' fil) ->
  vspacing (read fil) = vspacing (read' fil) -> used (read fil) = used (read' fil) ->
  from_vtk isfile read fil m = from_vtk isfile read' fil m.
Proof.
  intros A B C D. unfold from_vtk. destruct (negb _); [reflexivity|]. cbv zeta.
  rewrite (load_loop_used _ (varrays (read fil))), (load_loop_used _ (varrays (read' fil))).
  unfold used in D. rewrite A, B, C, D. reflexivity.
Qed.
Lemma no_file isfile read fil m : isfile fil = false \/ ends_with ".vtk" fil = false ->
  from_vtk isfile read fil m = Raise FileNotFoundError.
Proof. intros [H|H]; unfold from_vtk; rewrite H; [|rewrite andb_false_r]; reflexivity. Qed.
Lemma no_array isfile read fil m : isfile fil = true -> ends_with ".vtk" fil = true -> used (read fil) = [] ->
  from_vtk isfile read fil m = Raise UnboundLocalError.
Proof.
  intros A B C. unfold from_vtk. rewrite A, B. cbn [andb negb]. cbv zeta. rewrite load_loop_used.
  unfold used in C. rewrite C. reflexivity.
Qed.

Definition loaded (f : vtk_file) (a : vtk_array) : arr :=
  let '(nx, ny, nz) := vdims f in
  Arr nx ny nz (va_dim a) (fun i j k c => nth (((k * ny + j) * nx + i) * va_dim a + c) (va_data a) 0).
Lemma load_array_ok f a name dim : proper_array f a name dim -> load_array (vdims f) a = Ok (loaded f a).
Proof.
  unfold proper_array, load_array, loaded. destruct (vdims f) as [[nx ny] nz]. intros (_ & D & L).
  unfold reshape4. rewrite L, D. replace (nz * ny * nx * dim)%nat with (nx * ny * nz * dim)%nat by lia.
  rewrite Nat.eqb_refl. reflexivity.
Qed.
Lemma loaded_val f a i j k c : val (loaded f a) i j k c = vtk_sample f a i j k c.
Proof.
  unfold loaded, vtk_sample. destruct (vdims f) as [[nx ny] nz]. cbn [val]. f_equal. lia.
Qed.
Lemma load_size f a m isfile read fil : isfile fil = true -> ends_with ".vtk" fil = true -> f = read fil ->
  hd_error (used f) = Some a -> (let '(nx, ny, nz) := vdims f in length (va_data a) <> nx * ny * nz * va_dim a)%nat ->
  from_vtk isfile read fil m = Raise ValueError.
Proof.
  intros A B -> H L. unfold from_vtk. rewrite A, B. cbn [andb negb]. cbv zeta. rewrite load_loop_used.
  pose proof (used_relevant (read fil) a) as U.
  unfold used in *. destruct (filter relevant (varrays (read fil))) as [|a' l] eqn:E; [discriminate|].
  cbn in H. injection H as ->. rewrite load_relevant by (apply U; now left).
  unfold load_array. destruct (vdims (read fil)) as [[nx ny] nz]. unfold reshape4.
  destruct (Nat.eqb_spec (length (va_data a)) (nz * ny * nx * va_dim a)) as [E1|E1]; [exfalso; apply L; lia|reflexivity].
Qed.

Lemma generate_stored data o s m : consistent (Grid data o s) -> (m <= 6)%nat ->
  px s <> 0 -> py s <> 0 -> pz s <> 0 ->
  exists g, generate (Grid data o s) m = Ok g /\ consistent g /\ gorigin g = o /\ gspacing g = s /\
    (forall d, (d < m)%nat -> exists a, has_order g d a) /\
    forall d a i j k c, nth_error data d = Some a -> inside a i j k -> (c < 2 * d + 1)%nat ->
      grid_value g d c (P3 (px o + INR i * px s) (py o + INR j * py s) (pz o + INR k * pz s)) = val a i j k c.
Proof.
  intros H Hm S1 S2 S3. destruct (generate_available _ m H Hm) as (g & E & Hc & Ha).
  destruct (generate_keeps _ _ _ E) as (Eo & Es & (more & Ed) & _). cbn [gorigin gspacing gdata] in *.
  exists g. split; [exact E|]. split; [exact Hc|]. split; [exact Eo|]. split; [exact Es|]. split; [exact Ha|].
  intros d a i j k c Hd Hi Hl.
  replace (P3 _ _ _) with (grid_point g i j k) by (unfold grid_point; now rewrite Eo, Es).
  apply stored; [|exact Hl|unfold spacing_ok; rewrite Es; auto|exact Hi].
  split.
  - rewrite Ed, nth_error_app1; [exact Hd|]. apply nth_error_Some. congruence.
  - destruct H as [Hne H]. cbn [gdata] in *. destruct data as [|b data]; [now destruct Hne|].
    destruct (H d a b Hd eq_refl) as (W & _). lia.
Qed.

Lemma vtk_stored isfile read fil m f p fl :
  isfile fil = true -> ends_with ".vtk" fil = true -> f = read fil -> proper_file f ->
  proper_array f p "potential" 1 ->
  (used f = [p] \/ used f = [p; fl] /\ proper_array f fl "field" 3) -> (m <= 6)%nat ->
  exists g, from_vtk isfile read fil m = Ok g /\
    (forall d, (d < m)%nat -> exists a, has_order g d a) /\
    (forall i j k, in_file f i j k -> grid_value g 0 0 (vtk_point f i j k) = vtk_sample f p i j k 0) /\
    (used f = [p; fl] -> forall i j k c, in_file f i j k -> (c < 3)%nat ->
       grid_value g 1 c (vtk_point f i j k) = vtk_sample f fl i j k c).
Proof.
  intros A B -> Hf Hp Hu Hm.
  assert (exists data, load_loop (vdims (read fil)) (used (read fil)) [] false = Ok (data, true) /\
    consistent (Grid data (vorigin (read fil)) (vspacing (read fil))) /\
    nth_error data 0 = Some (loaded (read fil) p) /\ (used (read fil) = [p; fl] -> nth_error data 1 = Some (loaded (read fil) fl))) as (data & EL & HC & D0 & D1).
  { pose proof (used_relevant (read fil)) as UR.
    unfold proper_file in Hf. unfold loaded, load_array. destruct Hu as [Hu|[Hu Hfl]]; rewrite Hu in *.
    - exists [loaded (read fil) p]. rewrite load_relevant by (apply UR; now left). rewrite (load_array_ok _ _ _ _ Hp). cbn [bind load_loop app].
      split; [reflexivity|]. split; [|split; [reflexivity|discriminate]].
      split; [discriminate|]. intros d a b. cbn [gdata nth_error]. destruct d as [|d]; [|destruct d; discriminate].
      intros [= <-] [= <-]. unfold loaded. unfold proper_array in Hp. destruct (vdims (read fil)) as [[nx ny] nz]. cbn. destruct Hp as (_ & -> & _). tauto.
    - exists [loaded (read fil) p; loaded (read fil) fl]. rewrite load_relevant by (apply UR; now left). rewrite (load_array_ok _ _ _ _ Hp). cbn [bind].
      rewrite load_relevant by (apply UR; right; now left). rewrite (load_array_ok _ _ _ _ Hfl). cbn [bind load_loop app].
      split; [reflexivity|]. split; [|split; reflexivity].
      split; [discriminate|]. intros d a b. cbn [gdata nth_error]. unfold loaded. unfold proper_array in Hp, Hfl. destruct (vdims (read fil)) as [[nx ny] nz].
      destruct Hp as (_ & P1 & _), Hfl as (_ & F1 & _).
      destruct d as [|[|d]]; [| |destruct d; discriminate]; intros [= <-] [= <-]; cbn; rewrite ?P1, ?F1; tauto. }
  unfold proper_file in Hf.
  assert (px (vspacing (read fil)) <> 0 /\ py (vspacing (read fil)) <> 0 /\ pz (vspacing (read fil)) <> 0) as (S1 & S2 & S3)
    by (destruct (vdims (read fil)) as [[? ?] ?]; tauto).
  destruct (generate_stored data _ _ m HC Hm S1 S2 S3) as (g & EG & _ & _ & _ & Hav & Hst).
  exists g. split; [|split; [exact Hav|split]].
  - unfold from_vtk. rewrite A, B. cbn [andb negb]. cbv zeta. rewrite load_loop_used. fold (used (read fil)). rewrite EL. cbn [bind]. exact EG.
  - intros i j k Hi. unfold vtk_point. rewrite (Hst 0%nat _ i j k 0%nat D0); [apply loaded_val| |lia].
    unfold inside, loaded. unfold in_file in Hi. destruct (vdims (read fil)) as [[? ?] ?]. exact Hi.
  - intros HU i j k c Hi Hlt. unfold vtk_point. rewrite (Hst 1%nat _ i j k c (D1 HU)); [apply loaded_val| |lia].
    unfold inside, loaded. unfold in_file in Hi. destruct (vdims (read fil)) as [[? ?] ?]. exact Hi.
Qed.

(** the first array decides *)
Lemma load_loop_pot dims l : forall pot b data b', load_loop dims l pot b = Ok (data, b') -> exists more, data = pot ++ more.
Proof.
  induction l as [|a l IH]; intros pot b data b' H; cbn [load_loop] in H.
  - injection H as -> _. exists []. now rewrite app_nil_r.
  - destruct (contains _ _); [eauto|]. destruct (negb _); [eauto|].
    destruct (load_array dims a) as [d|]; [|discriminate]. cbn [bind] in H. apply IH in H. destruct H as (more & ->).
    exists (d :: more). now rewrite <- app_assoc.
Qed.
Lemma first_not_scalar isfile read fil m f a : isfile fil = true -> ends_with ".vtk" fil = true -> f = read fil ->
  hd_error (used f) = Some a ->
  (forall b, In b (used f) -> let '(nx, ny, nz) := vdims f in length (va_data b) = nx * ny * nz * va_dim b)%nat ->
  va_dim a <> 1%nat -> (0 < m)%nat ->
  from_vtk isfile read fil m = Raise AssertionError.
Proof.
  intros A B -> H L D Hm. unfold from_vtk. rewrite A, B. cbn [andb negb]. cbv zeta. rewrite load_loop_used. fold (used (read fil)).
  assert (LO : forall l pot b, (forall x, In x l -> In x (used (read fil))) -> exists data b', load_loop (vdims (read fil)) l pot b = Ok (data, b') /\
     (b = true -> b' = true)).
  { induction l as [|x l IH]; intros pot b Hl; [exists pot, b; auto|].
    rewrite load_relevant by (apply (used_relevant (read fil)); apply Hl; now left).
    assert (P : proper_array (read fil) x (va_name x) (va_dim x)).
    { unfold proper_array. specialize (L x (Hl x (or_introl eq_refl))). destruct (vdims (read fil)) as [[? ?] ?]. auto. }
    rewrite (load_array_ok _ _ _ _ P). cbn [bind]. destruct (IH (pot ++ [loaded (read fil) x]) true) as (data & b' & E & Hb); [intros; apply Hl; now right|].
    exists data, b'. split; [exact E|]. intros _. now apply Hb. }
  destruct (used (read fil)) as [|a' l] eqn:EU; [discriminate|]. cbn in H. injection H as ->.
  rewrite load_relevant by (apply (used_relevant (read fil)); rewrite EU; now left).
  assert (P : proper_array (read fil) a (va_name a) (va_dim a)).
  { unfold proper_array. specialize (L a (or_introl eq_refl)). destruct (vdims (read fil)) as [[? ?] ?]. auto. }
  rewrite (load_array_ok _ _ _ _ P). cbn [bind].
  destruct (LO l ([] ++ [loaded (read fil) a]) true) as (data & b' & E & Hb); [intros; now right|].
  rewrite E. cbn [bind]. rewrite (Hb eq_refl). destruct (load_loop_pot _ _ _ _ _ _ E) as (more & ->).
  unfold generate. cbn [gdata gspacing app]. destruct m as [|m]; [lia|]. cbn [seq generate_from].
  unfold generate_step at 1. cbn [length Nat.add Nat.ltb Nat.leb]. cbn [bind]. cbn [py_index Z.of_nat].
  unfold py_index. cbn [bind nth_error length Z.of_nat Z.ltb Z.compare Z.leb Z.to_nat].
  assert (W : width (loaded (read fil) a) = va_dim a) by (unfold loaded; destruct (vdims (read fil)) as [[? ?] ?]; reflexivity).
  cbn. rewrite W. destruct (va_dim a =? 1)%nat eqn:E1; [apply Nat.eqb_eq in E1; tauto|]. reflexivity.
Qed.

Lemma result_stored r m : proper_result r -> (m <= 6)%nat ->
  exists g, from_result r m = Ok g /\
    (forall d, (d < m)%nat -> exists a, has_order g d a) /\
    (forall i j k, in_result r i j k -> grid_value g 0 0 (result_point r i j k) = snd (rpotential r) i j k) /\
    (forall f i j k c, rfield r = Some f -> in_result r i j k -> (c < 3)%nat ->
       grid_value g 1 c (result_point r i j k) = val f c i j k).
Proof.
  intros (Hs & Hd & S1 & S2 & S3 & Hf) Hm. unfold from_result. cbv zeta.
  set (o := P3 _ _ _). set (s := P3 (astep _) _ _).
  set (data := match rfield r with Some f => [add_axis (rpotential r)] ++ [transpose_1230 f] | None => [add_axis (rpotential r)] end).
  destruct (rpotential r) as [sh pf] eqn:EP. cbn [fst] in Hs. subst sh.
  assert (D0 : nth_error data 0 = Some (Arr (ashape (rx r)) (ashape (ry r)) (ashape (rz r)) 1 (fun i j k _ => pf i j k)))
    by (unfold data; destruct (rfield r); reflexivity).
  assert (HC : consistent (Grid data o s)).
  { split; [cbn; unfold data; destruct (rfield r); discriminate|]. cbn [gdata]. intros d a b Ha Hb.
    rewrite D0 in Hb. injection Hb as <-. destruct d as [|d].
    - rewrite D0 in Ha. injection Ha as <-. cbn. tauto.
    - unfold data in Ha. destruct (rfield r) as [f|]; [|destruct d; discriminate]. destruct d as [|d]; [|destruct d; discriminate].
      cbn in Ha. injection Ha as <-. unfold transpose_1230. cbn. destruct Hf as (F1 & F2 & F3 & F4). rewrite F1, F2, F3, F4. tauto. }
  destruct (generate_stored data o s m HC Hm S1 S2 S3) as (g & EG & _ & _ & _ & Hav & Hst).
  exists g. split; [exact EG|]. split; [exact Hav|].
  assert (PT : forall i j k, result_point r i j k = P3 (px o + INR i * px s) (py o + INR j * py s) (pz o + INR k * pz s)).
  { intros. unfold result_point, o, s, indices_to_coordinates, get_origin. cbn [px py pz]. f_equal; field. }
  split.
  - intros i j k Hi. rewrite PT, (Hst 0%nat _ i j k 0%nat D0); [reflexivity| |lia]. exact Hi.
  - intros f i j k c Ef (I1 & I2 & I3) Hlt. rewrite Ef in Hf. destruct Hf as (F1 & F2 & F3 & F4). rewrite PT.
    rewrite (Hst 1%nat (transpose_1230 f) i j k c); [reflexivity| | |lia].
    + unfold data. now rewrite Ef.
    + unfold inside, transpose_1230. cbn. rewrite F2, F3, F4. auto.
Qed.

Lemma str_app_assoc a b c : String.append a (String.append b c) = String.append (String.append a b) c.
Proof. induction a as [|x a IH]; cbn; [reflexivity|]. rewrite IH. reflexivity. Qed.
Lemma substring_all s : substring 0 (String.length s) s = s.
Proof. induction s as [|x s IH]; cbn; [reflexivity|]. rewrite IH. reflexivity. Qed.
Lemma substring_app a b n : substring (String.length a) n (a ++ b)%string = substring 0 n b.
Proof. induction a as [|x a IH]; cbn; [reflexivity|exact IH]. Qed.
Lemma substring_pre a b : substring 0 (String.length a) (a ++ b)%string = a.
Proof. induction a as [|x a IH]; cbn; [destruct b; reflexivity|]. rewrite IH. reflexivity. Qed.
Lemma substring_split s : forall n m, exists a b, s = (a ++ substring n m s ++ b)%string /\ ((n <= String.length s)%nat -> String.length a = n) /\ ((String.length s <= n + m)%nat -> b = ""%string).
Proof.
  induction s as [|x s IH]; intros n m.
  - exists ""%string, ""%string. destruct n, m; cbn; repeat split; lia.
  - destruct n as [|n].
    + destruct m as [|m].
      * exists ""%string, (String x s). cbn. repeat split; lia.
      * destruct (IH 0%nat m) as (a & b & E & A & B). exists ""%string, b. cbn. specialize (A ltac:(lia)). destruct a; [|discriminate A]. cbn in E.
        rewrite E at 1. repeat split. intros L. apply B. lia.
    + destruct (IH n m) as (a & b & E & A & B). exists (String x a), b. cbn. rewrite <- E. split; [reflexivity|]. split; intros L; [rewrite A; lia|apply B; lia].
Qed.
Lemma str_app_length a b : String.length (a ++ b) = (String.length a + String.length b)%nat.
Proof. induction a as [|x a IH]; cbn; [reflexivity|]. rewrite IH. reflexivity. Qed.
Lemma ends_with_iff suf s : ends_with suf s = true <-> exists p, s = (p ++ suf)%string.
Proof.
  unfold ends_with. rewrite String.eqb_eq. split.
  - intros H. destruct (substring_split s (String.length s - String.length suf) (String.length suf)) as (a & b & E & A & B). rewrite H in E.
    exists a. rewrite B in E by lia. rewrite E at 1. f_equal. clear. induction suf as [|x l IH]; cbn; [reflexivity|rewrite IH; reflexivity].
  - intros [p ->]. rewrite str_app_length. replace (String.length p + String.length suf - String.length suf)%nat with (String.length p) by lia.
    rewrite substring_app. apply substring_all.
Qed.
Lemma contains_iff sub s : contains sub s = true <-> exists a b, s = (a ++ sub ++ b)%string.
Proof.
  unfold contains. split.
  - destruct (index 0 sub s) as [m|] eqn:I; [intros _|discriminate]. apply index_correct1 in I.
    destruct (substring_split s m (String.length sub)) as (a & b & E & _). rewrite I in E. exists a, b. exact E.
  - intros (a & b & ->). destruct (index 0 sub _) eqn:I; [reflexivity|]. exfalso. destruct sub as [|x sub].
    + revert I. clear. cbn [String.append]. destruct (a ++ b)%string; discriminate.
    + refine (index_correct3 0 (String.length a) (String x sub) _ I _ ltac:(lia) _); [discriminate|]. rewrite substring_app. apply substring_pre.
Qed.
