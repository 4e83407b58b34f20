(** Model of active_subspaces/utils/qp_solver.py *)
From Coq Require Import String Reals Lra Lia List Arith ZArith Bool.
From Verif Require Import Prelude Py NumArr.
Import ListNotations.
Open Scope R_scope.

(** ** NumPy operations on 1-d and 2-d arrays *)

(** np.dot for operands of rank 1 or 2 *)
Definition npdot (X Y : nd R) : res (nd R) :=
  match shape X, shape Y with
  | [k], [k'] => if Nat.eqb k k' then Ok (ND [] (fun _ => sumf k (fun l => X.[l] * Y.[l]))) else Err ValueError
  | [k], [k'; c] => if Nat.eqb k k' then Ok (mk1 c (fun j => sumf k (fun l => X.[l] * Y.[l, j]))) else Err ValueError
  | [r; k], [k'] => if Nat.eqb k k' then Ok (mk1 r (fun i => sumf k (fun l => X.[i, l] * Y.[l]))) else Err ValueError
  | _, _ => mdot X Y
  end.

(** elementwise operation with broadcasting, any rank *)
Fixpoint bshape (a b : list nat) : option (list nat) :=
  match a, b with
  | [], _ => Some b
  | _, [] => Some a
  | x :: a', y :: b' =>
      match bdim x y, bshape a' b' with Some n, Some s => Some (n :: s) | _, _ => None end
  end.
Fixpoint bixs (shp ix : list nat) : list nat :=
  match shp, ix with n :: shp', i :: ix' => bidx n i :: bixs shp' ix' | _, _ => [] end.
Definition bget {A} (X : nd A) (ix : list nat) : A := at_ X (bixs (shape X) (skipn (List.length ix - rank X) ix)).
Definition bcast {A B C} (f : A -> B -> C) (X : nd A) (Y : nd B) : res (nd C) :=
  match bshape (rev (shape X)) (rev (shape Y)) with
  | Some s => Ok (ND (rev s) (fun ix => f (bget X ix) (bget Y ix)))
  | None => Err ValueError
  end.

(** X[i,j] *)
Definition get2 (X : nd R) (i j : nat) : res R :=
  match shape X with
  | [r; c] => if (Nat.ltb i r && Nat.ltb j c)%bool then Ok (X.[i, j]) else Err IndexError
  | _ => Err IndexError
  end.
(** x[0] of an array of numbers that is 1-d: a number; of a 2-d array: its
    first row *)
Definition first1 (X : nd R) : res R :=
  match shape X with [S n] => Ok (X.[0%nat]) | _ => Err IndexError end.
Definition first2 (X : nd R) : res (nd R) :=
  match shape X with [S r; c] => Ok (mk1 c (fun j => X.[0%nat, j])) | _ => Err IndexError end.

(** ** What is handed to the back ends *)

(** scipy.optimize.linprog(c, A_ub, b_ub, A_eq, b_eq, bounds) *)
Record lp := LP { lp_c : nd R; lp_ub : option (nd R * nd R); lp_eq : option (nd R * nd R);
                  lp_bounds : list (option R * option R) }.
(** scipy.optimize.minimize(fun, x0, method, jac, bounds, constraints); a
    constraint is of type 'ineq', with its Jacobian *)
Record mprob := MP { mp_fun : nd R -> res R; mp_x0 : nd R; mp_method : string;
                     mp_jac : option (nd R -> res (nd R)); mp_bounds : list (option R * option R);
                     mp_cons : option ((nd R -> res (nd R)) * (nd R -> res (nd R))) }.
(** its answer: success, x (an array, or a plain float), fun *)
Inductive xsol := XArr (x : nd R) | XFloat (x : R).
Record mres := MR { mr_success : bool; mr_x : xsol; mr_fun : R }.
(** a gurobipy model: variable bounds, linear constraints (terms, sense, right
    hand side), quadratic and linear objective terms *)
Inductive gsense := GEqual | GGreaterEqual.
Record gmodel := GM { gm_vars : list (option R * option R); gm_cons : list (list (R * nat) * gsense * R);
                      gm_quad : list (R * nat * nat); gm_lin : list (R * nat) }.

(** the back ends; None from gurobi: status other than OPTIMAL *)
Record backend := Backend {
  has_gurobi : bool;                                     (* lines 5-11 *)
  linprog : lp -> res (bool * nd R);
  sp_minimize : mprob -> res mres;
  gurobi : gmodel -> res (option (list R))
}.

(** int(1e9) *)
Definition billion : nat := Z.to_nat 1000000000.

Section QP.
  Context {G : gen} {U : Type} {L : Type}.
  Notation W := (world G U L).
  Variable B : backend.

  (** np.savez('..._{:010d}'.format(np.random.randint(int(1e9))), ...); raise Exception.
      np.savez is taken to succeed. *)
  Definition dump_and_raise {A} (msg : string) : M W A :=
    dom _ <- draw_randint billion;
    dom _ <- savefile;
    merr (Exc msg).

  (** bounds.append((lb[i,0], ub[i,0])) for i in range(n) *)
  Definition bounds_of (lb ub : nd R) (n : nat) : res (list (option R * option R)) :=
    mapr (fun i => do l <- get2 lb i 0; do u <- get2 ub i 0; Ok (Some l, Some u)) (seq 0 n).

  (** utils/qp_solver.py 190-207 *)
  Definition scipy_lp_eq (c A b lb ub : nd R) : M W (nd R) :=
    dom c <- mlift (reshape [size c] c);
    dom b <- mlift (reshape [size b] b);
    dom bounds <- mlift (bounds_of lb ub (size lb));
    dom (ok, x) <- mlift (linprog B (LP c None (Some (A, b)) bounds));
    if (ok : bool) then mlift (reshape [size c; 1%nat] x)
    else dump_and_raise "Scipy did not solve the LP. Blame Scipy.".

  (** utils/qp_solver.py 209-227 *)
  Definition scipy_lp_ineq (c A b : nd R) : M W (nd R) :=
    dom c <- mlift (reshape [size c] c);
    dom b <- mlift (reshape [size b] b);
    let bounds := repeat (None, None) (size c) in
    dom (ok, x) <- mlift (linprog B (LP c (Some (amap Ropp A, amap Ropp b)) None bounds));
    if (ok : bool) then mlift (reshape [size c; 1%nat] x)
    else dump_and_raise "Scipy did not solve the LP. Blame Scipy.".

  (** lines 232-234 and 265-267: fun *)
  Definition qp_fun (c Q x : nd R) : res R :=
    do a <- npdot x c;
    do Qx <- npdot Q x;
    do b <- npdot x Qx;
    do f <- bcast Rplus a b;
    first1 f.
  (** lines 236-238 and 269-271: jac *)
  Definition qp_jac (c Q x : nd R) : res (nd R) :=
    do xQ <- npdot x Q;
    do j <- bcast Rplus (tr c) (amap (Rmult 2) xQ);
    first2 j.
  (** lines 274-276: cons *)
  Definition qp_cons (A b x : nd R) : res (nd R) := do Ax <- npdot A x; bcast Rminus Ax b.

  (** isinstance(xstar, float): np.array([[xstar]]) *)
  Definition as_array (x : xsol) : nd R :=
    match x with XArr x => x | XFloat x => mk2 1 1 (fun _ _ => x) end.

  (** utils/qp_solver.py 229-258 *)
  Definition scipy_qp_bnd (c Q lb ub : nd R) : M W (nd R) :=
    dom bounds <- mlift (bounds_of lb ub (size lb));
    let x0 := mk1 (size c) (fun _ => 0) in
    dom r <- mlift (sp_minimize B (MP (qp_fun c Q) x0 "L-BFGS-B" (Some (qp_jac c Q)) bounds None));
    if mr_success r then mlift (reshape [size c; 1%nat] (as_array (mr_x r)))
    else dump_and_raise "Scipy did not solve the LP. Blame Scipy.".

  (** utils/qp_solver.py 260-291 *)
  Definition scipy_qp_ineq (c Q A b : nd R) : M W (nd R) :=
    dom b <- mlift (reshape [size b] b);
    let x0 := mk1 (size c) (fun _ => 0) in
    dom r <- mlift (sp_minimize B (MP (qp_fun c Q) x0 "SLSQP" (Some (qp_jac c Q)) []
                                      (Some (qp_cons A b, fun _ => Ok A))));
    if mr_success r then mlift (reshape [size c; 1%nat] (as_array (mr_x r)))
    else dump_and_raise "Scipy did not solve the LP. Blame Scipy.".

  (** expr += A[i,j]*vars[j] for j in range(n) *)
  Definition row_expr (A : nd R) (i n : nat) : list (R * nat) := map (fun j => (A.[i, j], j)) (seq 0 n).
  Definition g_cons (A b : nd R) (m n : nat) (s : gsense) : res (list (list (R * nat) * gsense * R)) :=
    mapr (fun i => do bi <- get2 b i 0; Ok (row_expr A i n, s, bi)) (seq 0 m).
  Definition g_lin (c : nd R) (n : nat) : res (list (R * nat)) :=
    mapr (fun j => do cj <- get2 c j 0; Ok (cj, j)) (seq 0 n).
  Definition g_quad (Q : nd R) (n : nat) : res (list (R * nat * nat)) :=
    mapr (fun p => do q <- get2 Q (fst p) (snd p); Ok (q, fst p, snd p)) (list_prod (seq 0 n) (seq 0 n)).
  Definition g_free (n : nat) : list (option R * option R) := repeat (None, None) n.
  (** model.optimize(); the tail of every gurobi function *)
  Definition g_finish (model : gmodel) (n : nat) (msg : string) : M W (nd R) :=
    dom r <- mlift (gurobi B model);
    match r with
    | Some l => mlift (reshape [n; 1%nat] (mk1 (List.length l) (fun i => nth i l 0)))
    | None => dump_and_raise msg
    end.

  (** utils/qp_solver.py 293-328 *)
  Definition gurobi_lp_eq (c A b lb ub : nd R) : M W (nd R) :=
    dom (m, n) <- mlift (shape2 A);
    dom vars <- mlift (bounds_of lb ub n);
    dom cs <- mlift (g_cons A b m n GEqual);
    dom lin <- mlift (g_lin c n);
    g_finish (GM vars cs [] lin) n "Gurobi did not solve the LP. Blame Gurobi.".

  (** utils/qp_solver.py 331-367 *)
  Definition gurobi_lp_ineq (c A b : nd R) : M W (nd R) :=
    dom (m, n) <- mlift (shape2 A);
    dom cs <- mlift (g_cons A b m n GGreaterEqual);
    dom lin <- mlift (g_lin c n);
    g_finish (GM (g_free n) cs [] lin) n "Gurobi did not solve the LP. Blame Gurobi.".

  (** utils/qp_solver.py 369-401 *)
  Definition gurobi_qp_bnd (c Q lb ub : nd R) : M W (nd R) :=
    let n := nrows Q in
    dom vars <- mlift (bounds_of lb ub n);
    dom quad <- mlift (g_quad Q n);
    dom lin <- mlift (g_lin c n);
    g_finish (GM vars [] quad lin) n "Gurobi did not solve the QP. Blame Gurobi.".

  (** utils/qp_solver.py 403-443 *)
  Definition gurobi_qp_ineq (c Q A b : nd R) : M W (nd R) :=
    dom (m, n) <- mlift (shape2 A);
    dom cs <- mlift (g_cons A b m n GGreaterEqual);
    dom quad <- mlift (g_quad Q n);
    dom lin <- mlift (g_lin c n);
    g_finish (GM (g_free n) cs quad lin) n "Gurobi did not solve the QP. Blame Gurobi.".

  (** utils/qp_solver.py 33-48, QPSolver(solver): the attribute [solver] *)
  Definition qp_init (solver : string) : string :=
    if (String.eqb solver "GUROBI" && has_gurobi B)%bool then "GUROBI"
    else if String.eqb solver "SCIPY" then "SCIPY"
    else "SCIPY".

  (** utils/qp_solver.py 51-188: the four methods *)
  Definition dispatch {A} (solver : string) (s g : M W A) : M W A :=
    if String.eqb solver "SCIPY" then s else if String.eqb solver "GUROBI" then g else merr ValueError.
  Definition linear_program_eq (solver : string) (c A b lb ub : nd R) : M W (nd R) :=
    dispatch solver (scipy_lp_eq c A b lb ub) (gurobi_lp_eq c A b lb ub).
  Definition linear_program_ineq (solver : string) (c A b : nd R) : M W (nd R) :=
    dispatch solver (scipy_lp_ineq c A b) (gurobi_lp_ineq c A b).
  Definition quadratic_program_bnd (solver : string) (c Q lb ub : nd R) : M W (nd R) :=
    dispatch solver (scipy_qp_bnd c Q lb ub) (gurobi_qp_bnd c Q lb ub).
  Definition quadratic_program_ineq (solver : string) (c Q A b : nd R) : M W (nd R) :=
    dispatch solver (scipy_qp_ineq c Q A b) (gurobi_qp_ineq c Q A b).
End QP.
