(** Model of the voltage book-keeping of [System] (electrode/system.py
    lines 77-179).  Electrodes are python objects, so the same object may
    occur twice in a system: they are modelled as locations in a heap. *)
From Verif Require Import Base.
Open Scope R_scope.

(** electrode.py lines 59-62: the attributes every electrode has. *)
Record eattrs := { e_name : string; e_dc : R; e_rf : R }.

Definition loc := nat.
Definition heap := loc -> eattrs.

(** The state of a [System]: the list of electrode objects (system.py 77-79)
    and the objects themselves. *)
Record sysst := { members : list loc; store : heap }.

Definition upd (h : heap) (l : loc) (e : eattrs) : heap :=
  fun l' => if Nat.eqb l' l then e else h l'.

(** A voltage argument: an object that cannot be iterated, or an iterable
    delivering some values and then possibly raising. *)
Inductive viter (V : Type) :=
| NotIterable
| Iter (vs : list V) (fails : option exn).
Arguments NotIterable {V}.
Arguments Iter {V} vs fails.

(** The loop [for ei, vi in zip(self, voltages): ei.attr = vi]
    (system.py 91-92, 104-105, 117-118).  [zip] takes from [self] first, so
    the voltages are not touched any more once the system is exhausted. *)
Fixpoint zip_write {V} (w : V -> eattrs -> eattrs) (ls : list loc)
    (vs : list V) (fails : option exn) (h : heap) : heap * option exn :=
  match ls with
  | [] => (h, None)
  | l :: ls' =>
      match vs with
      | [] => (h, fails)
      | v :: vs' => zip_write w ls' vs' fails (upd h l (w v (h l)))
      end
  end.

Definition set_attr {V} (w : V -> eattrs -> eattrs) (s : sysst) (v : viter V)
  : sysst * option exn :=
  match v with
  | NotIterable => (s, Some TypeError)
  | Iter vs fails =>
      let r := zip_write w (members s) vs fails (store s) in
      ({| members := members s; store := fst r |}, snd r)
  end.

Definition w_dc (v : R) (e : eattrs) :=
  {| e_name := e_name e; e_dc := v; e_rf := e_rf e |}.
Definition w_rf (v : R) (e : eattrs) :=
  {| e_name := e_name e; e_dc := e_dc e; e_rf := v |}.
Definition w_name (v : string) (e : eattrs) :=
  {| e_name := v; e_dc := e_dc e; e_rf := e_rf e |}.

(** system.py 81-92 *)
Definition get_names (s : sysst) : list string :=
  map (fun l => e_name (store s l)) (members s).
Definition set_names := set_attr w_name.
(** system.py 94-105 *)
Definition get_dcs (s : sysst) : list R :=
  map (fun l => e_dc (store s l)) (members s).
Definition set_dcs := set_attr w_dc.
(** system.py 107-118 *)
Definition get_rfs (s : sysst) : list R :=
  map (fun l => e_rf (store s l)) (members s).
Definition set_rfs := set_attr w_rf.

(** system.py 120-141.  [KOther] is any key [list.__getitem__] rejects with
    TypeError and that equals no electrode name (None, a float, ...).  Slices
    are not modelled (they are plain list slices). *)
Inductive key := KInt (i : Z) | KStr (s : string) | KOther.

Fixpoint find_name (h : heap) (ls : list loc) (n : string) : option loc :=
  match ls with
  | [] => None
  | l :: r => if String.eqb (e_name (h l)) n then Some l else find_name h r n
  end.

Definition getitem (s : sysst) (k : key) : res (option loc) :=
  match k with
  | KInt i => bind (py_index (members s) i) (fun l => Ok (Some l))
  | KStr n => Ok (find_name (store s) (members s) n)
  | KOther => Ok None
  end.

(** The body of a [with] block: any state change, ending normally ([None])
    or by an exception. *)
Definition prog := sysst -> sysst * option exn.

(** The [finally] clause, system.py 175-179: [dcs]/[rfs] are the values of
    the local variables at that moment.  An exception raised by an
    assignment in the clause replaces the pending one. *)
Definition wv_finally (dcs rfs : option (viter R)) (s : sysst)
    (pending : option exn) : sysst * option exn :=
  let r1 := match dcs with Some v => set_dcs s v | None => (s, None) end in
  match snd r1 with
  | Some e => (fst r1, Some e)
  | None =>
      let r2 := match rfs with Some v => set_rfs (fst r1) v
                          | None => (fst r1, None) end in
      match snd r2 with
      | Some e => (fst r2, Some e)
      | None => (fst r2, pending)
      end
  end.

(** system.py 143-179.  [dcs, self.dcs = self.dcs, dcs] first rebinds the
    local variable to the old voltages and then calls the setter. *)
Definition with_voltages (dcs rfs : option (viter R)) (body : prog) : prog :=
  fun s =>
  let '(dcs1, (s1, e1)) :=
    match dcs with
    | None => (None, (s, None))
    | Some v => (Some (Iter (get_dcs s) None), set_dcs s v)
    end in
  match e1 with
  | Some e => wv_finally dcs1 rfs s1 (Some e)
  | None =>
      let '(rfs2, (s2, e2)) :=
        match rfs with
        | None => (None, (s1, None))
        | Some v => (Some (Iter (get_rfs s1) None), set_rfs s1 v)
        end in
      match e2 with
      | Some e => wv_finally dcs1 rfs2 s2 (Some e)
      | None =>
          let '(s3, e3) := body s2 in
          wv_finally dcs1 rfs2 s3 e3
      end
  end.
