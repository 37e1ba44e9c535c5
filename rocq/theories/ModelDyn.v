(** Model of utils.mathieu (electrode/utils.py 535-589) and of System.mathieu,
    rf_scale and _analyze_static (electrode/system.py 853-1056). *)
From Verif Require Import Base ModelUtils ModelField ModelSearch.
From Coquelicot Require Import Complex.
Open Scope R_scope.
Notation length := List.length.

(** ** The Floquet matrix, utils.py 571-585 *)
Definition cmat := nat -> nat -> C.
(** [m[l, l', d, d']], an n x n matrix *)
Definition blocks := nat -> nat -> nat -> nat -> cmat.
Definition set_block (m : blocks) (l l' d d' : nat) (v : cmat) : blocks :=
  fun k k' e e' => if ((k =? l) && (k' =? l') && (e =? d) && (e' =? d'))%nat%bool then v else m k k' e e'.
Definition cident (c : C) : cmat := fun i j => if (i =? j)%nat then c else RtoC 0.
Definition cneg (a : mat) : cmat := fun i j => RtoC (- a i j).
(** the inner loop over [enumerate(a)] *)
Definition fill_row (r l : nat) (m : blocks) (ia : nat * mat) : blocks :=
  let '(i, ai) := ia in
  if (l + i <? 2 * r + 1)%nat then
    set_block (set_block m l (l + i) 1 0 (cneg ai)) (l + i) l 1 0 (cneg ai)
  else m.
Definition fill (r : nat) (a : list mat) (m : blocks) (l : nat) : blocks :=
  let diag := cident (0, 2 * (INR l - INR r)) in
  let m := set_block m l l 1 1 diag in
  let m := set_block m l l 0 0 diag in
  let m := set_block m l l 0 1 (cident (RtoC 1)) in
  fold_left (fill_row r l) (combine (seq 0 (length a)) a) m.
Definition floquet_blocks (r : nat) (a : list mat) : blocks :=
  fold_left (fill r a) (seq 0 (2 * r + 1)) (fun _ _ _ _ _ _ => RtoC 0).
(** [m.transpose((0, 2, 4, 1, 3, 5)).reshape((2*r+1)*2*n, -1)] *)
Definition fold_axes (n : nat) (m : blocks) : cmat := fun row col =>
  m (row / n / 2)%nat (col / n / 2)%nat ((row / n) mod 2)%nat ((col / n) mod 2)%nat (row mod n)%nat (col mod n)%nat.
Definition floquet (r n : nat) (a : list mat) : cmat := fold_axes n (floquet_blocks r a).

(** ** System.mathieu, system.py 878-886.  [eig] is numpy's: eigenvalues with
    their columns; [argsort] gives a list of indices. *)
Definition dc2 (s : list electrode) (x : p3) : mat := fun i j =>
  match electrical_potential_expanded s [x] 2 TDc with Ok [t] => tensor_of t [i; j] | _ => 0 end.
Definition rf2 (s : list electrode) (x : p3) : mat := fun i j =>
  match electrical_potential_expanded s [x] 2 TRf with Ok [t] => tensor_of t [i; j] | _ => 0 end.
Definition mathieu_a (scale : R) (s : list electrode) (x : p3) : mat := fun i j => 16 * scale ^ 2 * dc2 s x i j.
Definition mathieu_q (scale : R) (s : list electrode) (x : p3) : mat := fun i j => 8 * scale ^ 2 * rf2 s x i j.
Definition column := nat -> C.
Definition select_modes (argsort : list R -> list nat) (sorted : bool) (l : list (C * column)) : list (C * column) :=
  let l := if sorted then
             let l := filter (fun mb => if Rle_dec 0 (Im (fst mb)) then true else false) l in
             map (fun i => nth i l (RtoC 0, fun _ => RtoC 0)) (argsort (map (fun mb => Im (fst mb)) l))
           else l in
  map (fun mb => (Cdiv (fst mb) (RtoC 2), snd mb)) l.
Definition sys_mathieu (eig : nat -> cmat -> list (C * column)) (argsort : list R -> list nat)
    (s : list electrode) (x : p3) (scale : R) (r : nat) (sorted : bool) : list (C * column) :=
  select_modes argsort sorted
    (eig ((2 * r + 1) * 2 * 3)%nat (floquet r 3 [mathieu_a scale s x; mathieu_q scale s x])).

(** ** rf_scale, system.py 971-972 *)
Definition rf_scale (m q l o : R) : R := sqrt (q / m) / (2 * l * o).

(** ** _analyze_static as a generator, system.py 980-1056.  A generator is
    suspended at a yield, from where it is resumed or where an exception is
    thrown in; only the fixed part of the lines is kept. *)
Local Open Scope string_scope.
Inductive gen :=
| GYield (line : string) (resume : gen) (thrown : exn -> gen)
| GRet
| GRaise (e : exn).
(** a yield outside of any [try] *)
Definition emit (s : string) (k : gen) : gen := GYield s k GRaise.
(** a yield inside of [try ... except: handler] *)
Definition emit_try (handler : gen) (s : string) (k : gen) : gen := GYield s k (fun _ => handler).
Fixpoint emits (l : list string) (k : gen) : gen :=
  match l with [] => k | s :: r => emit s (emits r k) end.
(** generator.close() *)
Definition close (g : gen) : res unit :=
  match g with
  | GYield _ _ thrown =>
      match thrown GeneratorExit with
      | GYield _ _ _ => Raise RuntimeError
      | GRet => Ok tt
      | GRaise GeneratorExit => Ok tt
      | GRaise e => Raise e
      end
  | _ => Ok tt
  end.
(** the lines up to the end or to an exception *)
Fixpoint lines (g : gen) : list string * option exn :=
  match g with
  | GYield s k _ => let '(l, e) := lines k in (s :: l, e)
  | GRet => ([], None)
  | GRaise e => ([], Some e)
  end.
(** resumed [n] times after the first line; [None] if it has ended *)
Fixpoint suspended (n : nat) (g : gen) : option gen :=
  match n, g with
  | O, GYield _ _ _ => Some g
  | S k, GYield _ g' _ => suspended k g'
  | _, _ => None
  end.
Definition or_raise (r : res unit) (k : gen) : gen := match r with Ok _ => k | Raise e => GRaise e end.
(** 1036-1056: [" %s: %.4g MHz, %s/%s" % (ci, fi/1e6, mi)] has too few
    arguments; there are [min 6 (3 * ions)] lines to come, at least one. *)
Definition ion_lines (ions_call : res unit) : gen :=
  or_raise ions_call (emits ["two ion modes:"; " separation"] (GRaise TypeError)).
Definition tail_lines (ions : Z) (ions_call : res unit) : gen :=
  emits ["force:"; " dc electrical"; " dc electrical (eV/m)"; " rf pseudo"; " rf pseudo (eV/m)"; "modes:";
         " pp+dc normal curvatures"; " motion is bounded";
         " pseudopotential modes:"; "  a"; "  b"; "  c"; "  euler angles";
         " mathieu modes:"; "  a"; "  b"; "  c"; "  euler angles";
         " heating"; "  field-noise psd"; "  a: ndot"; "  b: ndot"; "  c: ndot"]
    (if (1 <? ions)%Z then ion_lines ions_call else GRet).
Definition saddle_block (saddle_call : res unit) (k : gen) : gen :=
  let handler := emit " saddle not found" k in
  match saddle_call with
  | Raise _ => handler
  | Ok _ => emit_try handler " saddle offset" (emit_try handler "               (um)"
              (emit_try handler " saddle height" k))
  end.
Definition analyze_static (min_off : bool) (minimum_call saddle_call : res unit) (ions : Z) (ions_call : res unit) : gen :=
  emits ["parameters:"; " f, m, q, l, scale"; "corrdinates:"; " analyze point"; "               (um)"]
    (or_raise (if min_off then Ok tt else minimum_call)
      (emits [" minimum is at offset"; "                      (um)"; "potential:"; " dc electrical"; " rf pseudo"]
        (saddle_block saddle_call (tail_lines ions ions_call)))).
