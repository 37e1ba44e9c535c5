(** C54 *)
From Verif Require Import Base ModelUtils ModelField ModelSearch ModelDyn SpecDyn ProofGen.
Notation length := List.length.
Local Open Scope string_scope.
Local Open Scope list_scope.

(** closing at line [n]: only outside of the saddle search, which catches the
    GeneratorExit *)
Theorem C54_close_partial :
  forall min_off minimum_call saddle_call ions ions_call n g,
  suspended n (analyze_static min_off minimum_call saddle_call ions ions_call) = Some g ->
  ~ in_saddle_search n \/ (exists e, saddle_call = Raise e) -> close g = Ok tt.
Proof. exact close_outside. Qed.
(** an exception thrown in at any line outside of the saddle search leaves the
    generator; inside, every exception is taken for a saddle not found *)
Theorem C54_throw :
  forall min_off minimum_call saddle_call ions ions_call n g e,
  suspended n (analyze_static min_off minimum_call saddle_call ions ions_call) = Some g ->
  exists line resume thrown, g = GYield line resume thrown /\
  (~ in_saddle_search n \/ (exists e', saddle_call = Raise e') -> thrown e = GRaise e) /\
  (in_saddle_search n -> saddle_call = Ok tt -> exists k, thrown e = GYield " saddle not found" k GRaise).
Proof. exact throw_in. Qed.
Theorem C54_refuted_close :
  forall min_off minimum_call saddle_call ions ions_call n g,
  suspended n (analyze_static min_off minimum_call saddle_call ions ions_call) = Some g ->
  in_saddle_search n -> saddle_call = Ok tt -> close g = Raise RuntimeError.
Proof. exact close_inside. Qed.
Theorem C54_one_ion :
  forall (min_off : bool) minimum_call saddle_call ions ions_call, (ions <= 1)%Z ->
  (if min_off then Ok tt else minimum_call) = Ok tt ->
  snd (lines (analyze_static min_off minimum_call saddle_call ions ions_call)) = None.
Proof. exact one_ion. Qed.
(** the first mode line is never made *)
Theorem C54_refuted_two_ions :
  forall (min_off : bool) minimum_call saddle_call ions ions_call, (1 < ions)%Z ->
  (if min_off then Ok tt else minimum_call) = Ok tt -> ions_call = Ok tt ->
  exists l, lines (analyze_static min_off minimum_call saddle_call ions ions_call)
            = (l ++ ["two ion modes:"; " separation"], Some TypeError).
Proof. exact two_ions. Qed.
Print Assumptions C54_close_partial.
Print Assumptions C54_throw.
Print Assumptions C54_refuted_close.
Print Assumptions C54_one_ion.
Print Assumptions C54_refuted_two_ions.
Example C54_example :
  (exists g, suspended 11 (analyze_static false (Ok tt) (Ok tt) 1 (Ok tt)) = Some g) /\
  (exists g, suspended 20 (analyze_static false (Ok tt) (Raise ValueError) 1 (Ok tt)) = Some g) /\
  in_saddle_search 11.
Proof. split; [|split]; [eexists; reflexivity|eexists; reflexivity|]. split; repeat constructor. Qed.
