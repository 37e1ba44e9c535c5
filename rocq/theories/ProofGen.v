From Verif Require Import Base ModelUtils ModelField ModelSearch ModelDyn SpecDyn.
Notation length := List.length.
Local Open Scope string_scope.
Local Open Scope list_scope.

(** ** analyze_static *)
Lemma close_ok_outside min_off mn sd ions ic n g :
  suspended n (analyze_static min_off mn sd ions ic) = Some g ->
  ModelDyn.close g = if (match sd with Ok _ => true | Raise _ => false end && (10 <=? n) && (n <? 13))%nat%bool
            then Raise RuntimeError else Ok tt.
Proof.
  unfold analyze_static. destruct (if min_off then Ok tt else mn) as [[]|e]; cbn [or_raise].
  - destruct sd as [[]|e]; cbn [saddle_block];
      (do 10 (destruct n as [|n]; [intros H; injection H as <-; reflexivity|])); cbn [suspended emits emit emit_try];
      unfold tail_lines.
    + do 3 (destruct n as [|n]; [intros H; injection H as <-; reflexivity|]). 
      do 23 (destruct n as [|n]; [intros H; injection H as <-; reflexivity|]).
      cbn [suspended emits emit]. destruct (1 <? ions)%Z; [unfold ion_lines; destruct ic as [[]|e]; cbn [or_raise emits emit]|];
        try (do 2 (destruct n as [|n]; [intros H; injection H as <-; reflexivity|])); destruct n; discriminate.
    + do 24 (destruct n as [|n]; [intros H; injection H as <-; reflexivity|]).
      cbn [suspended emits emit]. destruct (1 <? ions)%Z; [unfold ion_lines; destruct ic as [[]|e']; cbn [or_raise emits emit]|];
        try (do 2 (destruct n as [|n]; [intros H; injection H as <-; reflexivity|])); destruct n; discriminate.
  - do 5 (destruct n as [|n]; [intros H; injection H as <-; cbn [ModelDyn.close emit]; rewrite andb_false_r; reflexivity|]).
    destruct n; discriminate.
Qed.
Lemma two_ions (min_off : bool) (mn sd : res unit) (ions : Z) (ic : res unit) : (1 < ions)%Z -> (if min_off then Ok tt else mn) = Ok tt -> ic = Ok tt ->
  exists l, lines (analyze_static min_off mn sd ions ic) = (l ++ ["two ion modes:"; " separation"], Some TypeError).
Proof.
  intros Hi Hm Hc. unfold analyze_static. rewrite Hm. cbn [or_raise]. unfold saddle_block, tail_lines, ion_lines.
  replace (1 <? ions)%Z with true by (symmetry; now apply Z.ltb_lt). rewrite Hc. cbn [or_raise].
  destruct sd as [[]|e]; cbn [lines emits emit emit_try].
  - exists ["parameters:"; " f, m, q, l, scale"; "corrdinates:"; " analyze point"; "               (um)"; " minimum is at offset"; "                      (um)"; "potential:"; " dc electrical"; " rf pseudo"; " saddle offset"; "               (um)"; " saddle height"; "force:"; " dc electrical"; " dc electrical (eV/m)"; " rf pseudo"; " rf pseudo (eV/m)"; "modes:";
         " pp+dc normal curvatures"; " motion is bounded";
         " pseudopotential modes:"; "  a"; "  b"; "  c"; "  euler angles";
         " mathieu modes:"; "  a"; "  b"; "  c"; "  euler angles";
         " heating"; "  field-noise psd"; "  a: ndot"; "  b: ndot"; "  c: ndot"]. reflexivity.
  - exists ["parameters:"; " f, m, q, l, scale"; "corrdinates:"; " analyze point"; "               (um)"; " minimum is at offset"; "                      (um)"; "potential:"; " dc electrical"; " rf pseudo"; " saddle not found"; "force:"; " dc electrical"; " dc electrical (eV/m)"; " rf pseudo"; " rf pseudo (eV/m)"; "modes:";
         " pp+dc normal curvatures"; " motion is bounded";
         " pseudopotential modes:"; "  a"; "  b"; "  c"; "  euler angles";
         " mathieu modes:"; "  a"; "  b"; "  c"; "  euler angles";
         " heating"; "  field-noise psd"; "  a: ndot"; "  b: ndot"; "  c: ndot"]. reflexivity.
Qed.
Lemma one_ion (min_off : bool) (mn sd : res unit) (ions : Z) (ic : res unit) : (ions <= 1)%Z -> (if min_off then Ok tt else mn) = Ok tt ->
  snd (lines (analyze_static min_off mn sd ions ic)) = None.
Proof.
  intros Hi Hm. unfold analyze_static. rewrite Hm. cbn [or_raise]. unfold saddle_block, tail_lines.
  replace (1 <? ions)%Z with false by (symmetry; apply Z.ltb_ge; lia).
  destruct sd as [[]|e]; reflexivity.
Qed.
Lemma close_outside min_off mn sd ions ic n g :
  suspended n (analyze_static min_off mn sd ions ic) = Some g ->
  ~ SpecDyn.in_saddle_search n \/ (exists e, sd = Raise e) -> close g = Ok tt.
Proof.
  intros H C. rewrite (close_ok_outside _ _ _ _ _ _ _ H). destruct sd as [[]|e]; [|reflexivity].
  destruct C as [C|(e & C)]; [|discriminate]. unfold SpecDyn.in_saddle_search in C.
  destruct (10 <=? n)%nat eqn:E1; [|reflexivity]. destruct (n <? 13)%nat eqn:E2; [|reflexivity].
  apply Nat.leb_le in E1. apply Nat.ltb_lt in E2. exfalso. apply C. split; assumption.
Qed.
Lemma close_inside min_off mn sd ions ic n g :
  suspended n (analyze_static min_off mn sd ions ic) = Some g ->
  SpecDyn.in_saddle_search n -> sd = Ok tt -> close g = Raise RuntimeError.
Proof.
  intros H [C1 C2] ->. rewrite (close_ok_outside _ _ _ _ _ _ _ H).
  apply Nat.leb_le in C1. apply Nat.ltb_lt in C2. now rewrite C1, C2.
Qed.
Lemma throw_in min_off mn sd ions ic n g e :
  suspended n (analyze_static min_off mn sd ions ic) = Some g ->
  exists line resume thrown, g = GYield line resume thrown /\
  (~ SpecDyn.in_saddle_search n \/ (exists e', sd = Raise e') -> thrown e = GRaise e) /\
  (SpecDyn.in_saddle_search n -> sd = Ok tt -> exists k, thrown e = GYield " saddle not found" k GRaise).
Proof.
  unfold SpecDyn.in_saddle_search.
  assert (P : forall line k m, (m < 10 \/ 13 <= m)%nat ->
    exists line' resume thrown, emit line k = GYield line' resume thrown /\
    (~ (10 <= m < 13)%nat \/ (exists e', sd = Raise e') -> thrown e = GRaise e) /\
    ((10 <= m < 13)%nat -> sd = Ok tt -> exists k, thrown e = GYield " saddle not found" k GRaise)).
  { intros line k m Hm. exists line, k, GRaise. split; [reflexivity|]. split; [reflexivity|lia]. }
  unfold analyze_static. destruct (if min_off then Ok tt else mn) as [[]|e0]; cbn [or_raise].
  - destruct sd as [[]|e1]; cbn [saddle_block].
    + do 10 (destruct n as [|n]; [intros H; injection H as <-; apply P; lia|]).
      cbn [suspended emits emit emit_try]. unfold tail_lines.
      do 3 (destruct n as [|n]; [intros H; injection H as <-; do 3 eexists; split; [reflexivity|]; split; [intros [N|(e' & N)]; [exfalso; apply N; lia|discriminate]|intros _ _; eexists; reflexivity]|]).
      do 23 (destruct n as [|n]; [intros H; injection H as <-; apply P; lia|]).
      cbn [suspended emits emit]. destruct (1 <? ions)%Z; [unfold ion_lines; destruct ic as [[]|e']; cbn [or_raise emits emit]|];
        try (do 2 (destruct n as [|n]; [intros H; injection H as <-; apply P; lia|])); destruct n; discriminate.
    + assert (P' : forall line k m, exists line' resume thrown, emit line k = GYield line' resume thrown /\
        (~ (10 <= m < 13)%nat \/ (exists e', Raise (A := unit) e1 = Raise e') -> thrown e = GRaise e) /\
        ((10 <= m < 13)%nat -> Raise e1 = Ok tt -> exists k, thrown e = GYield " saddle not found" k GRaise)).
      { intros line k m. exists line, k, GRaise. split; [reflexivity|]. split; [reflexivity|discriminate]. }
      do 10 (destruct n as [|n]; [intros H; injection H as <-; apply P'|]).
      cbn [suspended emits emit emit_try]. unfold tail_lines.
      do 24 (destruct n as [|n]; [intros H; injection H as <-; apply P'|]).
      cbn [suspended emits emit]. destruct (1 <? ions)%Z; [unfold ion_lines; destruct ic as [[]|e']; cbn [or_raise emits emit]|];
        try (do 2 (destruct n as [|n]; [intros H; injection H as <-; apply P'|])); destruct n; discriminate.
  - do 5 (destruct n as [|n]; [intros H; injection H as <-; apply P; lia|]). destruct n; discriminate.
Qed.
