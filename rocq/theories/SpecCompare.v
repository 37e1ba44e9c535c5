(** The voltage on the plane, for C185: what two layouts have to have in common. *)
From Verif Require Import Base ModelField SpecField SpecMax SpecTile SpecCover SpecDirichlet.
Open Scope R_scope.

(** [v] is the voltage of the plane at [q]: that of the electrode with [q] inside one of its
    pieces, or 0 outside all pieces; points on the sides of pieces have none *)
Definition plane_voltage (s : list electrode) (parts : electrode -> list (list p2)) (t : vtyp) (q : p2) (v : R) : Prop :=
  (exists e P, In e s /\ In P (parts e) /\ interior P q /\ v = voltage t e) \/
  ((forall e P, In e s -> In P (parts e) -> outside P q) /\ v = 0).
(** at no point of the plane is the first layout above the second *)
Definition nowhere_above (s : list electrode) (parts : electrode -> list (list p2)) (t : vtyp)
    (s' : list electrode) (parts' : electrode -> list (list p2)) (t' : vtyp) : Prop :=
  forall q v v', plane_voltage s parts t q v -> plane_voltage s' parts' t' q v' -> v <= v'.
(** at some point it is below *)
Definition somewhere_below (s : list electrode) (parts : electrode -> list (list p2)) (t : vtyp)
    (s' : list electrode) (parts' : electrode -> list (list p2)) (t' : vtyp) : Prop :=
  exists q v v', plane_voltage s parts t q v /\ plane_voltage s' parts' t' q v' /\ v < v'.
(** the same voltages everywhere *)
Definition same_plane (s : list electrode) (parts : electrode -> list (list p2)) (t : vtyp)
    (s' : list electrode) (parts' : electrode -> list (list p2)) (t' : vtyp) : Prop :=
  forall q v v', plane_voltage s parts t q v -> plane_voltage s' parts' t' q v' -> v = v'.
(** the same electrodes at other voltages *)
Definition raised (t t' : vtyp) (s s' : list electrode) : Prop :=
  Forall2 (fun e e' => egeom e = egeom e' /\ voltage t e <= voltage t' e') s s'.
