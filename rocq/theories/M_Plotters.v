(** Model of active_subspaces/utils/plotters.py.

    matplotlib.pyplot is modelled as a machine with a list of open figures (the
    last one is current), the figures already shown, and the image files
    written.  A figure is the list of the things drawn in it.  Drawing with no
    open figure opens one; [show] displays the open figures and closes them (as
    it does with a window back end);
    [savefig] writes the current figure (a new, empty one if none is open).
    All files go to the directory figs: if it does not exist, savefig raises
    IOError ([Exc "IOError"]).  Colours, fonts, sizes and the like are recorded
    as [IStyle] or dropped. *)
From Coq Require Import String Reals Lra Lia List Arith ZArith Bool.
From Verif Require Import Prelude Py NumArr.
Import ListNotations.
Open Scope R_scope.

Inductive item : Type :=
| ILine (kind : string) (pts : list (R * R))         (** plt.plot, plt.semilogy *)
| IBand (pts : list (R * R * R))                     (** plt.fill_between: x, lower, upper *)
| IScatter (pts : list (R * R * R)) (vmin vmax : R)  (** plt.scatter: x, y, colour *)
| IAxis (x0 x1 y0 y1 : R)                            (** plt.axis *)
| IXTicks (xs : list R) (labels : option (list string))
| IText (place text : string)                        (** plt.xlabel, ylabel, title *)
| IPanel (code : nat)                                (** plt.subplot *)
| IHull (pts : nd R)                                 (** convex_hull_plot_2d *)
| ITri (pts : nd R)                                  (** delaunay_plot_2d *)
| IStyle (what : string).
Definition fig := list item.

Record pyplot := PP {
  p_open : list fig; p_shown : list fig; p_files : list (string * fig); p_dir : bool }.
Notation W := pyplot.

(** plt.figure *)
Definition figure : M W unit := fun w =>
  (Ok tt, PP (p_open w ++ [[]]) (p_shown w) (p_files w) (p_dir w)).
(** the figures with [it] added to the current one *)
Definition add_item (it : item) (l : list fig) : list fig :=
  match l with [] => [[it]] | _ => removelast l ++ [last l [] ++ [it]] end.
Definition draw (it : item) : M W unit := fun w =>
  (Ok tt, PP (add_item it (p_open w)) (p_shown w) (p_files w) (p_dir w)).
Fixpoint draws (l : list item) : M W unit :=
  match l with [] => mret tt | it :: l => dom _ <- draw it; draws l end.
Definition savefig (name : string) : M W unit := fun w =>
  if p_dir w then
    let l := match p_open w with [] => [[]] | l => l end in
    (Ok tt, PP l (p_shown w) (p_files w ++ [(name, last l [])]) (p_dir w))
  else (Err (Exc "IOError"), w).
(** lines 487-488, show_plot *)
Definition show_plot : M W unit := fun w =>
  (Ok tt, PP [] (p_shown w ++ p_open w) (p_files w) (p_dir w)).

(** X[:,j] of a 2-d array *)
Definition column (X : nd R) (j : nat) : res (list R) :=
  match shape X with
  | [r; c] => if Nat.ltb j c then Ok (map (fun i => X.[i, j]) (seq 0 r)) else Err IndexError
  | _ => Err IndexError
  end.
(** X.shape[0], X.shape[1] *)
Definition dim0 {A} (X : nd A) : res nat := match shape X with r :: _ => Ok r | _ => Err IndexError end.
Definition dim1 {A} (X : nd A) : res nat := match shape X with _ :: c :: _ => Ok c | _ => Err IndexError end.
(** range(1, k+1) *)
Definition range1 (k : nat) : list R := map INR (seq 1 k).

(** plt.plot(x, y), plt.semilogy(x, y), plt.fill_between(x, y1, y2) on lists:
    ValueError if the lengths differ *)
Definition plot (kind : string) (x y : list R) : M W unit :=
  if Nat.eqb (List.length x) (List.length y) then draw (ILine kind (combine x y)) else merr ValueError.
Definition fill_between (x y1 y2 : list R) : M W unit :=
  if (Nat.eqb (List.length x) (List.length y1) && Nat.eqb (List.length x) (List.length y2))%bool
  then draw (IBand (combine (combine x y1) y2)) else merr ValueError.
(** plt.plot(x, Y) with a 2-d Y: one line per column *)
Fixpoint plot_cols (kind : string) (x : list R) (Y : nd R) (js : list nat) : M W unit :=
  match js with
  | [] => mret tt
  | j :: js => dom y <- mlift (column Y j); dom _ <- plot kind x y; plot_cols kind x Y js
  end.

(** plt.plot(x, Y): a 1-d Y is one line; more than two dimensions: ValueError *)
Definition plot_any (kind : string) (x : list R) (Y : nd R) : M W unit :=
  match shape Y with
  | [k] => plot kind x (map (fun i => Y.[i]) (seq 0 k))
  | [_; c] => plot_cols kind x Y (seq 0 c)
  | _ => merr ValueError
  end.

(** np.amin, np.amax of all entries *)
Definition rmin_list (l : list R) : res R :=
  match l with [] => Err ValueError | a :: t => Ok (fold_left Rmin t a) end.
Definition rmax_list (l : list R) : res R :=
  match l with [] => Err ValueError | a :: t => Ok (fold_left Rmax t a) end.
Definition entries (X : nd R) : list R := map (fun p => at_ X (unravel (shape X) p)) (seq 0 (size X)).

(** lines 9-40, plot_opts; the font is dropped *)
Record popts := PO { o_savefigs : bool; o_figtype : string }.
Definition plot_opts (savefigs : bool) (figtype : string) : M W popts := fun w =>
  (Ok (PO savefigs figtype),
   if savefigs then PP (p_open w) (p_shown w) (p_files w) true else w).
(** [if opts == None: opts = plot_opts()] *)
Definition get_opts (o : option popts) : M W popts :=
  match o with None => plot_opts true ".eps" | Some o => mret o end.
(** [if out_label is None: out_label = 'Output'] *)
Definition label (o : option string) : string := match o with None => "Output"%string | Some s => s end.
(** [if opts['savefigs']: plt.savefig('figs/..' + out_label + opts['figtype'])] *)
Definition save_if (o : popts) (stem lab : string) : M W unit :=
  if o_savefigs o then savefig (("figs/" ++ stem ++ lab ++ o_figtype o))%string else mret tt.

(** lines 43-90, eigenvalues *)
Definition eigenvalues (e : nd R) (e_br : option (nd R)) (out_label : option string) (opts : option popts) : M W unit :=
  dom o <- get_opts opts;
  dom k <- mlift (dim0 e);
  let lab := label out_label in
  dom _ <- figure;
  dom _ <- draw (IStyle "font");
  dom _ <- plot_any "semilogy" (range1 k) e;
  dom _ <- match e_br with
           | None => mret tt
           | Some B => dom lo <- mlift (column B 0); dom hi <- mlift (column B 1); fill_between (range1 k) lo hi
           end;
  dom _ <- draws [IText "xlabel" "Index"; IText "ylabel" "Eigenvalues"; IText "title" lab; IStyle "grid";
                  IXTicks (range1 k) None];
  dom _ <- match e_br with
           | None =>
               dom lo <- mlift (rmin_list (entries e)); dom hi <- mlift (rmax_list (entries e));
               draw (IAxis 0 (INR (k + 1)) (1/10 * lo) (10 * hi))
           | Some B =>
               dom l <- mlift (column B 0); dom lo <- mlift (rmin_list l);
               dom h <- mlift (column B 1); dom hi <- mlift (rmax_list h);
               draw (IAxis 0 (INR (k + 1)) (1/10 * lo) (10 * hi))
           end;
  dom _ <- save_if o "evals_" lab;
  show_plot.

(** lines 91-132, subspace_errors *)
Definition subspace_errors (sub_br : nd R) (out_label : option string) (opts : option popts) : M W unit :=
  dom o <- get_opts opts;
  dom kk <- mlift (dim0 sub_br);
  let lab := label out_label in
  dom _ <- figure;
  dom _ <- draw (IStyle "font");
  dom mid <- mlift (column sub_br 1);
  dom _ <- plot "semilogy" (range1 kk) mid;
  dom lo <- mlift (column sub_br 0);
  dom hi <- mlift (column sub_br 2);
  dom _ <- fill_between (range1 kk) lo hi;
  dom _ <- draws [IText "xlabel" "Subspace dimension"; IText "ylabel" "Subspace distance"; IText "title" lab;
                  IStyle "grid"; IXTicks (range1 kk) None];
  dom l0 <- mlift (rmin_list lo);
  dom _ <- draw (IAxis 0 (INR (kk + 1)) (1/10 * l0) 1);
  dom _ <- save_if o "subspace_" lab;
  show_plot.

(** the curve of one eigenvector with its band: e.g. lines 178-181 *)
Definition curve (W0 : nd R) (W_br : option (nd R)) (m j : nat) : M W unit :=
  dom w <- mlift (column W0 j);
  dom _ <- plot "plot" (range1 m) w;
  match W_br with
  | None => mret tt
  | Some B => dom lo <- mlift (column B (2 * j)); dom hi <- mlift (column B (2 * j + 1)); fill_between (range1 m) lo hi
  end.
(** [if in_labels is not None: plt.xticks(..)]: e.g. lines 185-188 *)
Definition tick_labels (in_labels : option (list string)) (m : nat) : M W unit :=
  match in_labels with
  | None => mret tt
  | Some l => draws [IXTicks (range1 m) (Some l); IStyle "margins"; IStyle "subplots_adjust"]
  end.
Definition unit_axis (m : nat) : M W unit := draw (IAxis 1 (INR m) (-1) 1).
(** one of the panels: e.g. lines 193-204; the styles are drawn before or after
    the title, which does not matter here *)
Definition panel (W0 : nd R) (W_br : option (nd R)) (m code j : nat) (title : string) (lab : option (list string)) : M W unit :=
  dom _ <- draw (IPanel code);
  dom _ <- draw (IStyle "font");
  dom _ <- curve W0 W_br m j;
  dom _ <- draws [IText "title" title; IStyle "grid"; IStyle "tick_params"];
  dom _ <- tick_labels lab m;
  unit_axis m.

(** lines 133-323, eigenvectors *)
Definition eigenvectors (W0 : nd R) (W_br : option (nd R)) (in_labels : option (list string))
    (out_label : option string) (opts : option popts) : M W unit :=
  dom o <- get_opts opts;
  dom (m, n) <- mlift (match shape W0 with [m; n] => Ok (m, n) | _ => Err ValueError end);
  dom _ <- mlift (match W_br with
                  | None => Ok tt
                  | Some B => match shape B with
                              | [_; n_br] => guard (Nat.eqb n_br (2 * n)) (Exc "Number bootstrap range columns is wrong. Should be n_br=2n")
                              | _ => Err ValueError
                              end
                  end);
  let lab := label out_label in
  dom _ <- figure;
  dom _ <-
    match n with
    | 1%nat =>
        dom _ <- draw (IStyle "font");
        dom _ <- curve W0 W_br m 0;
        dom _ <- draws [IText "ylabel" "Eigenvector 1 components"; IText "title" lab; IStyle "grid"];
        dom _ <- tick_labels in_labels m;
        unit_axis m
    | 2%nat =>
        dom _ <- panel W0 W_br m 211 0 (lab ++ ", evec 1")%string None;
        panel W0 W_br m 212 1 (lab ++ ", evec 2")%string in_labels
    | 3%nat =>
        dom _ <- panel W0 W_br m 221 0 (lab ++ ", evec 1")%string None;
        dom _ <- panel W0 W_br m 222 1 (lab ++ ", evec 2")%string in_labels;
        panel W0 W_br m 223 2 (lab ++ ", evec 3")%string in_labels
    | _ =>
        dom _ <- panel W0 W_br m 221 0 (lab ++ ", evec 1")%string None;
        dom _ <- panel W0 W_br m 222 1 (lab ++ ", evec 2")%string None;
        dom _ <- panel W0 W_br m 223 2 (lab ++ ", evec 3")%string in_labels;
        panel W0 W_br m 224 3 (lab ++ ", evec 4")%string in_labels
    end;
  dom _ <- save_if o "evecs_" lab;
  show_plot.

(** the responses f: an M-by-1 array or a 1-d array of length M (other shapes
    are not modelled) *)
Definition responses (f : nd R) : res (list R) :=
  match shape f with
  | [_; 1%nat] => column f 0
  | [k] => Ok (map (fun i => f.[i]) (seq 0 k))
  | _ => Err ValueError
  end.

(** lines 325-394, sufficient_summary *)
Definition sufficient_summary (y f : nd R) (out_label : option string) (opts : option popts) : M W unit :=
  dom o <- get_opts opts;
  dom n <- mlift (dim1 y);
  dom _ <- mlift (guard (Nat.eqb n 1 || Nat.eqb n 2)
    (Exc "Sufficient summary plots cannot be made in more than 2 dimensions."));
  let lab := label out_label in
  dom _ <- figure;
  dom _ <- draw (IStyle "font");
  dom y1 <- mlift (column y 0);
  dom f1 <- mlift (responses f);
  dom _ <- plot "plot" y1 f1;
  dom _ <- draws [IText "xlabel" "Active variable"; IText "ylabel" lab; IStyle "grid"];
  dom _ <- save_if o "ssp1_" lab;
  dom _ <-
    (if Nat.eqb n 2 then
      dom _ <- figure;
      dom _ <- draw (IStyle "font");
      dom y2 <- mlift (column y 1);
      dom vmin <- mlift (rmin_list f1); dom vmax <- mlift (rmax_list f1);
      dom _ <- draw (IScatter (combine (combine y1 y2) f1) vmin vmax);
      dom _ <- draws [IText "xlabel" "Active variable 1"; IText "ylabel" "Active variable 2"];
      dom a1 <- mlift (rmin_list y1); dom a2 <- mlift (rmin_list y2); dom a <- mlift (rmin_list [a1; a2]);
      dom b1 <- mlift (rmax_list y1); dom b2 <- mlift (rmax_list y2); dom b <- mlift (rmax_list [b1; b2]);
      let ymin := 11/10 * a in let ymax := 11/10 * b in
      dom _ <- draw (IAxis ymin ymax ymin ymax);
      dom _ <- draws [IStyle "aspect"; IStyle "grid"; IText "title" lab; IStyle "colorbar"];
      save_if o "ssp2_" lab
    else mret tt);
  show_plot.

Section Zonotope.
  (** scipy.spatial.ConvexHull and Delaunay: they may raise *)
  Variable convex_hull : nd R -> res unit.
  Variable delaunay : nd R -> res unit.

  (** lines 395-485, zonotope_2d_plot; the figure is saved after it is shown *)
  Definition zonotope_2d_plot (vertices : nd R) (design y f : option (nd R)) (out_label : option string)
      (opts : option popts) : M W unit :=
    dom o <- get_opts opts;
    let lab := label out_label in
    dom c <- mlift (dim1 vertices);
    dom _ <- mlift (guard (Nat.eqb c 2) (Exc "Zonotope vertices should be 2d."));
    dom _ <- mlift (match design with
                    | None => Ok tt
                    | Some d => do c <- dim1 d; guard (Nat.eqb c 2) (Exc "Zonotope design should be 2d.")
                    end);
    dom _ <- mlift (match y with
                    | None => Ok tt
                    | Some d => do c <- dim1 d; guard (Nat.eqb c 2) (Exc "Zonotope design should be 2d.")
                    end);
    dom _ <- mlift (match y, f with
                    | Some _, None | None, Some _ => Err (Exc "You need both y and f to plot.")
                    | Some y, Some f => do a <- dim0 y; do b <- dim0 f; guard (Nat.eqb a b) (Exc "Lengths of y and f are not the same.")
                    | None, None => Ok tt
                    end);
    dom xmin <- mlift (rmin_list (entries vertices));
    dom xmax <- mlift (rmax_list (entries vertices));
    dom _ <- mlift (convex_hull vertices);
    dom pts <- mlift (match design with
                      | None => Ok None
                      | Some d => do p <- vstack d vertices; do _ <- delaunay p; Ok (Some p)
                      end);
    dom _ <- figure;
    dom _ <- draw (IPanel 111);
    dom _ <- draw (IHull vertices);
    dom _ <- draw (IStyle "linewidth");
    dom _ <- match pts with None => mret tt | Some p => draws [ITri p; IStyle "color"] end;
    dom _ <- match y, f with
             | Some y, Some f =>
                 dom y1 <- mlift (column y 0); dom y2 <- mlift (column y 1); dom f1 <- mlift (responses f);
                 dom vmin <- mlift (rmin_list f1); dom vmax <- mlift (rmax_list f1);
                 draws [IScatter (combine (combine y1 y2) f1) vmin vmax; IStyle "aspect"; IText "title" lab; IStyle "colorbar"]
             | _, _ => mret tt
             end;
    dom _ <- draws [IAxis (11/10 * xmin) (11/10 * xmax) (11/10 * xmin) (11/10 * xmax);
                    IText "xlabel" "Active variable 1"; IText "ylabel" "Active variable 2"];
    dom _ <- show_plot;
    save_if o "zonotope_2d_" lab.
End Zonotope.
