(** Threads that do not disturb each other. *)
From Verif Require Import Base ModelExpr ModelField ModelThreads.
Open Scope R_scope.
Notation length := List.length.

(** the cells an instruction uses, and those it writes *)
Definition used (i : instr) : cell := match i with Load c => c | Store c _ => c end.
Definition uses (is : list instr) (c : cell) : Prop := exists i, In i is /\ used i = c.
Definition writes (is : list instr) (c : cell) : Prop := exists f, In (Store c f) is.
(** no thread writes what another one uses *)
Definition race_free (ts : list thread) : Prop :=
  forall t t' a b c, t <> t' -> nth_error ts t = Some a -> nth_error ts t' = Some b ->
  writes (code a) c -> ~ uses (code b) c.
(** all steps have been done *)
Definition finished (ts : list thread) : Prop := forall th, In th ts -> code th = [].
(** the thread running by itself *)
Fixpoint alone (is : list instr) (l : locals) (m : memory) : locals * memory :=
  match is with [] => (l, m) | i :: r => let '(l', m') := exec i l m in alone r l' m' end.

(** the contents of an array of n rows of w numbers *)
Definition contents (m : memory) (o n w : nat) : list row := map (fun j => map (fun e => m (o, j, e)) (seq 0 w)) (seq 0 n).
(** a call of one of the three compiled functions *)
Inductive job :=
| Points (xs : list p3) (pixels : list (p2 * R)) (potential : R) (derivative : nat) (nmax : Z) (height : R)
| OnePolygon (xs : list p3) (polygon : list p2) (potential : R) (derivative : nat) (nmax : Z) (height : R)
| Mesh (xs : list p3) (points : list p2) (edges : list ((nat * nat) * nat)) (potentials : list R) (derivative : nat) (nmax : Z) (height : R).
Definition job_code (o : nat) (jb : job) : list instr :=
  loop_code o match jb with
  | Points xs pixels p d n h => point_incs xs pixels p d n h
  | OnePolygon xs poly p d n h => polygon_incs xs poly p d n h
  | Mesh xs pts es ps d n h => mesh_incs xs pts es ps d n h
  end.
Definition job_points (jb : job) : list p3 := match jb with Points xs _ _ _ _ _ => xs | OnePolygon xs _ _ _ _ _ => xs | Mesh xs _ _ _ _ _ _ => xs end.
Definition job_order (jb : job) : nat := match jb with Points _ _ _ d _ _ => d | OnePolygon _ _ _ d _ _ => d | Mesh _ _ _ _ d _ _ => d end.
(** what the loops of the Python code (C05 and others) make of the array *)
Definition job_result (jb : job) (out : list row) : list row :=
  match jb with
  | Points xs pixels p d n h => point_loop xs pixels p d n h out
  | OnePolygon xs poly p d n h => polygon_loop xs poly p d n h out
  | Mesh xs pts es ps d n h => mesh_loop xs pts es ps d n h out
  end.

(** a with block: the electrodes of the system, the voltages and the body *)
Record block := Block { b_members : list nat; b_voltages : list R; b_body : list instr }.
Definition block_thread (b : block) : thread := Thread (with_voltages_code (b_members b) (b_voltages b) (b_body b)) [].
