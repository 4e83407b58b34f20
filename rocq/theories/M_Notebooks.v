(** Model of the example notebooks of the test functions:
    tutorials/test_functions/{otl_circuit,piston,borehole,wing_weight,robot}/*_example.ipynb.

    A notebook is a program that sees numpy's random state, one Subspaces object
    and the plotting machine.  The cells are numbered as in the .ipynb files,
    from 0 and with the text cells.  The number of samples (M = 1000 in
    the notebooks) is a parameter N; so is the number of bootstrap replicates nboot
    (500).  Decimal numbers are the rationals they denote. *)
From Coq Require Import String Reals Lra Lia List Arith ZArith Bool.
From Verif Require Import Prelude Py NumArr M_Misc M_QP M_Subspaces M_Domains M_Plotters M_Tutorials.
Import ListNotations.
Open Scope R_scope.

(** np.hstack of a tuple of 2-d arrays *)
Definition hstack_all (l : list (nd R)) : res (nd R) :=
  match l with
  | [] => Err ValueError
  | a :: t => fold_left (fun acc b => do x <- acc; hstack x b) t (Ok a)
  end.

(** [ac.utils.misc.BoundedNormalizer(xl, xu).normalize(x)]; the limits differ, so
    the entries are numbers *)
Definition norm (xl xu : list R) (x : nd R) : res (nd R) :=
  do s <- bounded_init (np_array xl) (np_array xu);
  do y <- bounded_normalize s (amap Fin x);
  Ok (amap fin_of y).

(** X[:k] and X[:k,:] *)
Definition rows_to (k : nat) (X : nd R) : nd R := mk2 (Nat.min k (nrows X)) (ncols X) (fun i j => X.[i, j]).

Section Notebooks.
  Context {G : gen} {U : Type}.
  Notation Wd := (world G U (nd R)).
  Notation St := (Wd * subspaces)%type.
  (** random state, the object ss, matplotlib *)
  Notation NB := (St * pyplot)%type.
  Variable eigh : nd R -> res (nd R * nd R).
  Variable argsort : list R -> list nat.
  Variable lstsq : nd R -> nd R -> res (nd R).
  Variable norm2 : nd R -> R.
  Variable det : nd R -> R.

  Definition onS {A} (m : M St A) : M NB A := fun w => let (r, s) := m (fst w) in (r, (s, snd w)).
  Definition onP {A} (m : M pyplot A) : M NB A := fun w => let (r, p) := m (snd w) in (r, (fst w, p)).
  Definition onW {A} (m : M Wd A) : M NB A := onS (liftW m).
  (** an attribute of ss, used as an array: None has none of its methods *)
  Definition attr (get : subspaces -> option (nd R)) : M NB (nd R) :=
    dom s <- onS getS; match get s with Some a => mret a | None => merr AttributeError end.
  (** an attribute of ss with [...] after it: None has no items *)
  Definition sliced (get : subspaces -> option (nd R)) : M NB (nd R) :=
    dom s <- onS getS; match get s with Some a => mret a | None => merr TypeError end.

  (** cell 3: np.hstack of np.random.uniform(lo, hi, (N, k)) for the (lo, hi, k)
      given, in this order *)
  Definition sample (N : nat) (boxes : list (R * R * nat)) : M NB (nd R) :=
    dom cols <- mmap (fun b => match b with (lo, hi, k) => onW (uniform2 lo hi N k) end) boxes;
    mlift (hstack_all cols).

  (** cells 9 and 11 of all notebooks but robot's *)
  Definition analyse (nboot : Z) (in_labels : list string) (XX f df : nd R) : M NB (nd R) :=
    dom _ <- onS (setS subs_new);
    dom _ <- onS (ss_compute eigh argsort lstsq norm2 det None None (Some df) None "AS" "EVG" nboot);
    dom e <- attr s_eigenvals; dom s <- onS getS;
    dom _ <- onP (eigenvalues e (s_e_br s) None None);
    dom sub_br <- attr s_sub_br;
    dom _ <- onP (subspace_errors sub_br None None);
    dom _ <- onS (ss_partition (IsA 2%Z));
    dom W1 <- attr s_W1;
    dom y <- mlift (npdot XX W1);
    dom _ <- onP (eigenvectors W1 None (Some in_labels) None None);
    dom _ <- onP (sufficient_summary y f None None);
    mret y.

  (** cells 9 and 11 of robot_example.ipynb: the last eigenvalue and the last
      error are left out, and all eight eigenvectors are drawn, four at a time *)
  Definition analyse_robot (nboot : Z) (in_labels : list string) (XX f df : nd R) : M NB (nd R) :=
    dom _ <- onS (setS subs_new);
    dom _ <- onS (ss_compute eigh argsort lstsq norm2 det None None (Some df) None "AS" "EVG" nboot);
    dom e <- sliced s_eigenvals; dom e_br <- sliced s_e_br;
    dom _ <- onP (eigenvalues (rows_to 7 e) (Some (rows_to 7 e_br)) None None);
    dom sub_br <- sliced s_sub_br;
    dom _ <- onP (subspace_errors (rows_to 6 sub_br) None None);
    dom _ <- onS (ss_partition (IsA 2%Z));
    dom W1 <- attr s_W1;
    dom y <- mlift (npdot XX W1);
    dom V <- sliced s_eigenvecs;
    dom _ <- onP (eigenvectors (cols_slice V 0 4) None (Some in_labels) None None);
    dom V <- sliced s_eigenvecs;
    dom _ <- onP (eigenvectors (cols_slice V 4 (ncols V)) None (Some in_labels) None None);
    dom _ <- onP (sufficient_summary y f None None);
    mret y.

  (** the variables the notebook ends with *)
  Record results := Results { r_x : nd R; r_XX : nd R; r_f : nd R; r_df : nd R; r_y : nd R }.

  (** cells 3-11 of the notebooks with uniform inputs *)
  Definition uniform_notebook (boxes : list (R * R * nat)) (xl xu : list R) (fun_ grad : nd R -> res (nd R))
      (cells9_11 : nd R -> nd R -> nd R -> M NB (nd R)) (N : nat) : M NB results :=
    dom x <- sample N boxes;
    dom XX <- mlift (norm xl xu x);
    dom f <- mlift (fun_ XX);
    dom df <- mlift (grad XX);
    dom y <- cells9_11 XX f df;
    mret (Results x XX f df y).

  (** otl_circuit/otlcircuit_example.ipynb *)
  Definition circuit_notebook (N : nat) (nboot : Z) : M NB results :=
    uniform_notebook [(50, 150, 1%nat); (25, 70, 1%nat); (5/10, 3, 1%nat); (12/10, 25/10, 1%nat); (25/100, 12/10, 1%nat); (50, 300, 1%nat)]
      [50; 25; 5/10; 12/10; 25/100; 50] [150; 70; 3; 25/10; 12/10; 300] circuit circuit_grad
      (analyse nboot ["Rb1"; "Rb2"; "Rf"; "Rc1"; "Rc2"; "beta"]%string) N.

  (** piston/piston_example.ipynb *)
  Definition piston_notebook (N : nat) (nboot : Z) : M NB results :=
    uniform_notebook [(30, 60, 1%nat); (5/1000, 2/100, 1%nat); (2/1000, 1/100, 1%nat); (1000, 5000, 1%nat); (90000, 110000, 1%nat);
                      (290, 296, 1%nat); (340, 360, 1%nat)]
      [30; 5/1000; 2/1000; 1000; 90000; 290; 340] [60; 2/100; 1/100; 5000; 110000; 296; 360] piston piston_grad
      (analyse nboot ["M"; "S"; "V0"; "k"; "P0"; "Ta"; "T0"]%string) N.

  (** wing_weight/wing_example.ipynb *)
  Definition wing_notebook (N : nat) (nboot : Z) : M NB results :=
    uniform_notebook [(150, 200, 1%nat); (220, 300, 1%nat); (6, 10, 1%nat); (-10, 10, 1%nat); (16, 45, 1%nat); (5/10, 1, 1%nat);
                      (8/100, 18/100, 1%nat); (25/10, 6, 1%nat); (1700, 2500, 1%nat); (25/1000, 8/100, 1%nat)]
      [150; 220; 6; -10; 16; 5/10; 8/100; 25/10; 1700; 25/1000] [200; 300; 10; 10; 45; 1; 18/100; 6; 2500; 8/100] wing wing_grad
      (analyse nboot ["Sw"; "Wfw"; "A"; "Lambda"; "q"; "lambda"; "tc"; "Nz"; "Wdg"; "Wp"]%string) N.

  (** robot/robot_example.ipynb *)
  Definition robot_notebook (N : nat) (nboot : Z) : M NB results :=
    uniform_notebook [(0, 2 * PI, 4%nat); (0, 1, 4%nat)]
      [0; 0; 0; 0; 0; 0; 0; 0] [2 * PI; 2 * PI; 2 * PI; 2 * PI; 1; 1; 1; 1] robot robot_grad
      (analyse_robot nboot ["t1"; "t2"; "t3"; "t4"; "L1"; "L2"; "L3"; "L4"]%string) N.

  (** np.random.normal(mu, sd, (M, 1)) *)
  Definition normal_column (mu sd : R) (N : nat) : M NB (nd R) :=
    dom z <- onW (normal2 N 1); mret (amap (fun t => mu + sd * t) z).

  (** borehole/borehole_example.ipynb; the two reshapes to (M, 1) change nothing *)
  Definition borehole_notebook (N : nat) (nboot : Z) : M NB results :=
    dom rw <- normal_column (1/10) (161812/10000000) N;
    dom r <- normal_column (771/100) (10056/10000) N;
    let r := amap exp r in
    dom cols <- mmap (fun b => match b with (lo, hi) => onW (uniform2 lo hi N 1) end)
      [(63070, 115600); (990, 1110); (631/10, 116); (700, 820); (1120, 1680); (9855, 12045)];
    dom x <- mlift (hstack_all (rw :: r :: cols));
    dom XX <- mlift (norm [63070; 990; 631/10; 700; 1120; 9855] [115600; 1110; 116; 820; 1680; 12045] (cols_slice x 2 (ncols x)));
    let rw_norm := amap (fun t => (t - 1/10) / (161812/10000000)) rw in
    let r_norm := amap (fun t => (ln t - 771/100) / (10056/10000)) r in
    dom XX <- mlift (hstack_all [rw_norm; r_norm; XX]);
    dom f <- mlift (borehole XX);
    dom df <- mlift (borehole_grad XX);
    dom y <- analyse nboot ["rw"; "r"; "Tu"; "Hu"; "Tl"; "Hl"; "L"; "Kw"]%string XX f df;
    mret (Results x XX f df y).
End Notebooks.
