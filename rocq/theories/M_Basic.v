(** Model of tutorials/basic.ipynb, the first tutorial, with the functions of
    tutorials/wing_functions.py.

    As in M_Notebooks, a cell is a program that sees numpy's random state, the
    Subspaces object ss and the plotting machine; the cells are numbered from 0,
    text cells included.  The numbers of samples N (1000), bootstrap replicates
    nboot (100), quadrature points NQ (1000) and Monte Carlo points K (1e7) are
    parameters.  Printing, timing, and the comparison with scipy.optimize.minimize
    at the end of cell 21 are left out. *)
From Coq Require Import String Reals Lra Lia List Arith ZArith Bool.
From Verif Require Import Prelude Py NumArr M_Misc M_SimRunners M_RespSurf M_Gradients M_Subspaces M_Quadrature M_QP M_Domains M_Designs M_ASRS
  M_Integrals M_Optimizers M_Plotters M_Tutorials M_Notebooks.
Import ListNotations.
Open Scope R_scope.

(** cell 3: np.array(l).reshape((1, 10)) *)
Definition limits_row (l : list R) : res (nd R) := reshape [1%nat; 10%nat] (mk1 (List.length l) (fun i => nth i l 0)).
(** cell 3: what is called ub holds the lower limits, what is called lb the upper *)
Definition basic_ub : list R := [150; 220; 6; -10; 16; 5/10; 8/100; 25/10; 1700; 25/1000].
Definition basic_lb : list R := [200; 300; 10; 10; 45; 1; 18/100; 6; 2500; 8/100].

(** cell 3: XX = 2.*(x - lb)/(ub - lb) - 1.0 *)
Definition basic_normalize (lb ub x : nd R) : res (nd R) :=
  do d <- bcast2 Rminus x lb;
  do r <- bcast2 Rminus ub lb;
  do q <- bcast2 Rdiv (amap (Rmult 2) d) r;
  Ok (amap (fun t => t - 1) q).

(** cell 13: df = wing_grad(x); df *= (ub - lb)/2.; df[:,3] *= np.pi/180. *)
Definition basic_gradient (lb ub x : nd R) : res (nd R) :=
  do df <- tut_wing_grad x;
  do r <- bcast2 Rminus ub lb;
  do df <- bcast2 Rmult df (amap (fun t => t / 2) r);
  Ok (mk2 (nrows df) (ncols df) (fun i j => if Nat.eqb j 3 then df.[i, j] * (PI / 180) else df.[i, j])).

(** cell 19: X = lb + (ub - lb)/2.*(X + 1) *)
Definition basic_physical (lb ub X : nd R) : res (nd R) :=
  do r <- bcast2 Rminus ub lb;
  do p <- bcast2 Rmult (amap (fun t => t / 2) r) (amap (fun t => t + 1) X);
  bcast2 Rplus lb p.

(** cell 19: MC_f.sum()/M, MC_f.std(ddof=1)/np.sqrt(M); at least two values *)
Definition mc_mean (K : nat) (F : nd R) : R := sumf K (fun i => F.[i, 0%nat]) / INR K.
Definition mc_error (K : nat) (F : nd R) : R :=
  sqrt (sumf K (fun i => (F.[i, 0%nat] - mc_mean K F) * (F.[i, 0%nat] - mc_mean K F)) / INR (K - 1)) / sqrt (INR K).

Section Basic.
  Context {G : gen} {U : Type}.
  Notation Wd := (world G U (nd R)).
  Notation St := (Wd * subspaces)%type.
  Notation NB := (St * pyplot)%type.
  Variable eigh : nd R -> res (nd R * nd R).
  Variable argsort : list R -> list nat.
  Variable lstsq : nd R -> nd R -> res (nd R).
  Variable norm2 : nd R -> R.
  Variable det : nd R -> R.
  Variable B : backend.
  Variable convex_hull : nd R -> res (nd R).
  Variable eig : nd R -> res (nd R * nd R).
  Variable delaunay : nd R -> res (list (list nat) * (nd R -> list Z)).
  Variable fminbound : (R -> res R) -> R -> R -> res (R * R * bool).

  (** cell 3 *)
  Definition cell3 (N : nat) : M NB (nd R * nd R * nd R * nd R * nd R) :=
    dom x <- sample N [(150, 200, 1%nat); (220, 300, 1%nat); (6, 10, 1%nat); (-10, 10, 1%nat); (16, 45, 1%nat); (5/10, 1, 1%nat);
                       (8/100, 18/100, 1%nat); (25/10, 6, 1%nat); (1700, 2500, 1%nat); (25/1000, 8/100, 1%nat)];
    dom f <- mlift (tut_wing x);
    dom ub <- mlift (limits_row basic_ub);
    dom lb <- mlift (limits_row basic_lb);
    dom XX <- mlift (basic_normalize lb ub x);
    mret (x, f, ub, lb, XX).

  (** the three plots of cells 7, 9, 11 and 13 *)
  Definition three_plots (XX f : nd R) : M NB unit :=
    dom e <- attr s_eigenvals; dom s <- onS getS;
    dom _ <- onP (eigenvalues e (s_e_br s) None None);
    dom sub_br <- attr s_sub_br;
    dom _ <- onP (subspace_errors sub_br None None);
    dom W1 <- attr s_W1;
    dom y <- mlift (npdot XX W1);
    onP (sufficient_summary y f None None).

  (** cells 5 and 7 *)
  Definition cell5_7 (nboot : Z) (XX f : nd R) : M NB unit :=
    dom _ <- onS (setS subs_new);
    dom _ <- onS (ss_compute eigh argsort lstsq norm2 det (Some XX) (Some f) None None "OLS" "EVG" nboot);
    three_plots XX f.

  (** cell 9 *)
  Definition cell9 (nboot : Z) (XX f : nd R) : M NB unit :=
    dom _ <- onS (ss_compute eigh argsort lstsq norm2 det (Some XX) (Some f) None None "QPHD" "EVG" nboot);
    three_plots XX f.

  (** the same with gradients *)
  Definition from_gradients (nboot : Z) (XX f df : nd R) : M NB unit :=
    dom _ <- onS (ss_compute eigh argsort lstsq norm2 det None None (Some df) None "AS" "EVG" nboot);
    three_plots XX f.
  (** cell 11 *)
  Definition cell11 (nboot : Z) (XX f : nd R) : M NB (nd R) :=
    dom df <- onW (local_linear_gradients argsort lstsq XX f None None);
    dom _ <- from_gradients nboot XX f df;
    mret df.
  (** cell 13 *)
  Definition cell13 (nboot : Z) (x lb ub XX f : nd R) : M NB (nd R) :=
    dom df <- mlift (basic_gradient lb ub x);
    dom _ <- from_gradients nboot XX f df;
    mret df.

  (** cell 15; y has one column when the plot is reached, otherwise predict has
      raised.  The notebook's back end shows the figure at the end of the cell. *)
  Definition cell15 (XX f : nd R) : M NB poly :=
    dom W1 <- attr s_W1;
    dom y <- mlift (npdot XX W1);
    dom RS <- mlift (poly_train lstsq 2 y f None);
    dom _ <- onP figure;
    dom y0 <- mlift (linspace (-2) 2 200);
    dom (F0, _) <- mlift (poly_predict RS (mk2 (size y0) 1 (fun i _ => y0.[i])) false);
    dom y1 <- mlift (column y 0); dom f1 <- mlift (column f 0);
    dom _ <- onP (plot "plot" y1 f1);
    dom c0 <- mlift (column F0 0);
    dom _ <- onP (plot "plot" (map (fun i => y0.[i]) (seq 0 (size y0))) c0);
    dom _ <- onP (draws [IStyle "grid"; IText "xlabel" "Active Variable Value"; IText "ylabel" "Output"]);
    dom _ <- onP show_plot;
    mret RS.

  (** cell 17 *)
  Definition cell17 : M NB avdomain := dom s <- onS getS; onW (bounded_domain convex_hull (IsA s)).

  (** cell 19: lambda x: RS.predict(x)[0] *)
  Definition surface_fun (RS : poly) : ufun (U := U) (nd R) (nd R) :=
    fun x u => (do (v, _) <- poly_predict RS x false; Ok v, u).
  Definition cell19 (NQ : Z) (K : nat) (RS : poly) (d : avdomain) (lb ub : nd R) : M NB (R * nd R * R * R) :=
    dom mu <- onW (av_integrate B convex_hull eig argsort delaunay (AVFun (IsA (surface_fun RS))) (IsA (AVM MBounded d)) (IsA NQ));
    dom X <- onW (uniform2 (-1) 1 K 10);
    dom X <- mlift (basic_physical lb ub X);
    dom F <- mlift (tut_wing X);
    mret (mu, X, mc_mean K F, mc_error K F).

  (** cell 21: lambda x: RS.predict(x.reshape(1,1))[0]; the value is an array of
      one entry *)
  Definition surface_at (RS : poly) (y : nd R) : res R :=
    do Y <- reshape [1%nat; 1%nat] y;
    do (v, _) <- poly_predict RS Y false;
    get2 v 0 0.
  Definition cell21 (RS : poly) (d : avdomain) : M NB (R * R) :=
    dom (y, v) <- onW (av_minimize B fminbound (surface_at RS) d None);
    dom y <- mlift (get2 y 0 0);
    mret (y, v).

  Record basic_results := BR {
    b_x : nd R; b_f : nd R; b_XX : nd R; b_df11 : nd R; b_df : nd R; b_RS : poly; b_dom : avdomain;
    b_int : R; b_X : nd R; b_mean : R; b_error : R; b_ystar : R; b_fstar : R }.

  Definition basic_notebook (N : nat) (nboot NQ : Z) (K : nat) : M NB basic_results :=
    dom (x, f, ub, lb, XX) <- cell3 N;
    dom _ <- cell5_7 nboot XX f;
    dom _ <- cell9 nboot XX f;
    dom df11 <- cell11 nboot XX f;
    dom df <- cell13 nboot x lb ub XX f;
    dom RS <- cell15 XX f;
    dom d <- cell17;
    dom (mu, X, mean, error) <- cell19 NQ K RS d lb ub;
    dom (y, v) <- cell21 RS d;
    mret (BR x f XX df11 df RS d mu X mean error y v).
End Basic.
