(** Model of several Python threads that share memory: the compiled loops of
    electrode/cexpressions.pyx 35-135, which release the interpreter lock
    ([with nogil]), and System.with_voltages, electrode/system.py 143-179,
    between whose reads and writes other threads may run.  The steps that
    cannot be interrupted are the reads and the writes of single numbers.  The
    edge formula is that of expressions.py; the compiled file writes order 0
    with atan2, which is the same number (C29). *)
From Verif Require Import Base ModelExpr ModelField.
Open Scope R_scope.
Notation length := List.length.

(** a number in memory: entry [e] of row [j] of array [o], written (o, j, e) *)
Definition cell : Type := nat * nat * nat.
Definition cell_eqb (a b : cell) : bool :=
  let '(o, j, e) := a in let '(o', j', e') := b in ((o =? o') && (j =? j') && (e =? e'))%nat%bool.
Definition memory := cell -> R.
Definition put (m : memory) (c : cell) (v : R) : memory := fun c' => if cell_eqb c' c then v else m c'.

(** the thread's own variables: the numbers it has read, the last one first *)
Notation locals := (list R).
Inductive instr := Load (c : cell) | Store (c : cell) (f : locals -> R).
Record thread := Thread { code : list instr; vars : locals }.
Definition exec (i : instr) (l : locals) (m : memory) : locals * memory :=
  match i with Load c => (m c :: l, m) | Store c f => (l, put m c (f l)) end.
(** thread t does its next step, if there is one *)
Fixpoint step (t : nat) (ts : list thread) (m : memory) {struct ts} : list thread * memory :=
  match ts, t with
  | [], _ => ([], m)
  | th :: r, 0%nat =>
      match code th with
      | [] => (th :: r, m)
      | i :: is => let '(l, m') := exec i (vars th) m in (Thread is l :: r, m')
      end
  | th :: r, Datatypes.S t' => let '(r', m') := step t' r m in (th :: r', m')
  end.
(** a schedule names the threads in the order of their steps *)
Definition run (schedule : list nat) (ts : list thread) (m : memory) : list thread * memory :=
  fold_left (fun st t => step t (fst st) (snd st)) schedule (ts, m).

(** ** the compiled loops *)
(** row j of the array is increased by inc *)
Notation incs := (list (nat * row)).
(** cexpressions.pyx 53-64: what point_potential adds, in order.  The arrays
    x, points and areas are taken to be constant meanwhile. *)
Definition point_incs (xs : list p3) (pixels : list (p2 * R)) (potential : R) (derivative : nat) (nmax : Z) (height : R) : incs :=
  flat_map (fun pa : p2 * R =>
    let a0 := snd pa * potential in
    flat_map (fun j =>
      let x0 := px (at_ xs j) - fst (fst pa) in
      let y0 := py (at_ xs j) - snd (fst pa) in
      map (fun k =>
        let z0 := pz (at_ xs j) + 2 * IZR k * height in
        let r0 := sqrt (x0 ^ 2 + y0 ^ 2 + z0 ^ 2) in
        (j, point_expr derivative x0 y0 z0 r0 a0)) (images nmax)) (seq 0 (length xs))) pixels.
(** cexpressions.pyx 84-99: polygon_potential, one polygon *)
Fixpoint vertex_incs (x : p3) (z : R) (potential : R) (derivative j : nat) (vs : list p2) (before : R * R * R) : incs :=
  match vs with
  | [] => []
  | v :: r =>
      let '(x1, y1, r1) := before in
      let x2 := px x - fst v in
      let y2 := py x - snd v in
      let r2 := sqrt (x2 ^ 2 + y2 ^ 2 + z ^ 2) in
      let l2 := (x1 - x2) ^ 2 + (y1 - y2) ^ 2 in
      (j, edge_expr derivative x1 x2 y1 y2 r1 r2 l2 z potential) :: vertex_incs x z potential derivative j r (x2, y2, r2)
  end.
Definition polygon_incs (xs : list p3) (polygon : list p2) (potential : R) (derivative : nat) (nmax : Z) (height : R) : incs :=
  flat_map (fun j =>
    let x := at_ xs j in
    flat_map (fun m =>
      let v := last polygon (0, 0) in
      let x2 := px x - fst v in
      let y2 := py x - snd v in
      let z := pz x + 2 * IZR m * height in
      vertex_incs x z potential derivative j polygon (x2, y2, sqrt (x2 ^ 2 + y2 ^ 2 + z ^ 2))) (images nmax)) (seq 0 (length xs)).
(** cexpressions.pyx 119-134: mesh_potential *)
Definition mesh_incs (xs : list p3) (points : list p2) (edges : list ((nat * nat) * nat)) (potentials : list R)
    (derivative : nat) (nmax : Z) (height : R) : incs :=
  flat_map (fun e : (nat * nat) * nat =>
    flat_map (fun j =>
      let x := at_ xs j in
      map (fun k =>
        let z := pz x + 2 * IZR k * height in
        let v1 := nth (fst (fst e)) points (0, 0) in
        let v2 := nth (snd (fst e)) points (0, 0) in
        let x1 := px x - fst v1 in
        let y1 := py x - snd v1 in
        let r1 := sqrt (x1 ^ 2 + y1 ^ 2 + z ^ 2) in
        let x2 := px x - fst v2 in
        let y2 := py x - snd v2 in
        let r2 := sqrt (x2 ^ 2 + y2 ^ 2 + z ^ 2) in
        let l2 := (x1 - x2) ^ 2 + (y1 - y2) ^ 2 in
        let potential := nth (snd e) potentials 0 in
        (j, edge_expr derivative x1 x2 y1 y2 r1 r2 l2 z potential)) (images nmax)) (seq 0 (length xs))) edges.
(** cexpressions.pyx 139-243: [d[e] += ...] reads, adds and writes; [e] is the
    number of the first entry of [inc] *)
Fixpoint add_code (o j e : nat) (inc : row) : list instr :=
  match inc with
  | [] => []
  | d :: r => Load (o, j, e) :: Store (o, j, e) (fun l => hd 0 l + d) :: add_code o j (e + 1) r
  end.
(** the compiled loop that adds to array o *)
Definition loop_code (o : nat) (is : incs) : list instr := flat_map (fun ji => add_code o (fst ji) 0 (snd ji)) is.

(** ** System.with_voltages, system.py 143-179, with dcs given: the getter
    (94-100) reads the voltages, the setter (102-105) writes those of zip,
    after the body the setter writes back what was read.  Cell (e, 0, 0) is
    the attribute dc of electrode e. *)
Definition dc (e : nat) : cell := (e, 0%nat, 0%nat).
Definition set_code (members : list nat) (vs : list R) : list instr :=
  map (fun ev => Store (dc (fst ev)) (fun _ => snd ev)) (combine members vs).
(** the first voltages read are the last of the list *)
Definition restore_code (members : list nat) : list instr :=
  map (fun ie => Store (dc (snd ie)) (fun l => nth (fst ie) (rev l) 0)) (combine (seq 0 (length members)) members).
Definition with_voltages_code (members : list nat) (vs : list R) (body : list instr) : list instr :=
  map (fun e => Load (dc e)) members ++ set_code members vs ++ body ++ restore_code members.
