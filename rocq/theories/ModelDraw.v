(** Model of Electrode.plot, electrode/electrode.py 122-131, 235-254, 287-305:
    what matplotlib receives.  Colours are left out (C149). *)
From Verif Require Import Base ModelUtils ModelField ModelPlot.
Open Scope R_scope.
Notation length := List.length.

(** mpl.path.Path.MOVETO and LINETO *)
Inductive code := MoveTo | LineTo.
(** PathPatch(Path(vertices, codes), alpha=alpha) *)
Record patch := Patch { p_vertices : list p2; p_codes : list code; p_alpha : option R }.
(** EllipseCollection: widths = heights (None: nan), centres; [d_alpha] as for patches *)
Record discs := Discs { d_diameters : list (option R); d_offsets : list p2; d_alpha : option R }.
(** ax.text *)
Record text := Text { t_at : p2; t_label : string }.
Record drawn := Drawn { patches : list patch; circles : list discs; texts : list text }.

(** p[:,0].mean(), p[:,1].mean() *)
Definition mean2 (p : list p2) : p2 := (sumR (map fst p) / INR (length p), sumR (map snd p) / INR (length p)).
(** 250-251, 299-300: the label, if any is to be drawn *)
Definition label_of (name : string) (label : option string) : option string :=
  let label := match label with None => name | Some l => l end in
  if String.eqb label "" then None else Some label.

(** PolygonPixelElectrode.plot.  290: np.r_[p, [p[0]]] *)
Definition close_path (p : list p2) : res (list p2) := match p with [] => Raise IndexError | v :: _ => Ok (p ++ [v]) end.
(** 291-294 *)
Definition path_codes (p : list p2) : list code := MoveTo :: repeat LineTo (length p).
Definition polygon_plot (paths : list (list p2)) (name : string) (label : option string) (alpha : option R) : res drawn :=
  bind (collect (map close_path paths)) (fun closed =>
  match closed with
  | [] => Raise ValueError  (* np.concatenate of no arrays *)
  | _ =>
      Ok (Drawn [Patch (concat closed) (concat (map path_codes paths)) alpha] []
            (match label_of name label with None => [] | Some l => map (fun p => Text (mean2 p) l) paths end))
  end).

(** PointPixelElectrode.plot; the keyword arguments [kw], among them alpha, are
    not used.  An array of no points has one axis only: p[:, (0, 1)] fails. *)
Definition diameter (a : R) : option R := if Rlt_dec a 0 then None else Some (sqrt (a / PI) * 2).
Definition point_plot (pixels : list (p2 * R)) (name : string) (label : option string) (alpha : option R) : res drawn :=
  match pixels with
  | [] => Raise IndexError
  | _ =>
      Ok (Drawn [] [Discs (map (fun x => diameter (snd x)) pixels) (map fst pixels) None]
            (match label_of name label with None => [] | Some l => [Text (mean2 (map fst pixels)) l] end))
  end.
(** Electrode.plot of every class; those without a plot of their own inherit
    the one that does nothing (131) *)
Definition electrode_plot (e : electrode) (label : option string) (alpha : option R) : res drawn :=
  match egeom e with
  | EPolygon paths _ _ => polygon_plot paths (ename e) label alpha
  | EPoint pixels _ _ => point_plot pixels (ename e) label alpha
  | _ => Ok (Drawn [] [] [])
  end.
(** system.py 370-374: System.plot (electrodes drawn before one that raises are
    left out) *)
Definition system_plot (s : list electrode) (alpha : R) : res (list drawn) :=
  collect (map (fun call => electrode_plot (fst (fst call)) None (Some (snd call))) (plot s alpha)).
