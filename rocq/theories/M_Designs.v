(** Model of active_subspaces/utils/designs.py *)
From Coq Require Import String Reals Lra Lia List Arith ZArith Bool.
From Verif Require Import Prelude Py NumArr M_Misc M_Gradients M_Subspaces M_Quadrature M_QP M_Domains.
Import ListNotations.
Open Scope R_scope.

(** ** NumPy and SciPy pieces *)

(** np.linspace(a, b, num): num points, the first a, the last b; ValueError
    for a negative num *)
Definition linspace (a b : R) (num : Z) : res (nd R) :=
  do K <- dimZ num;
  Ok (mk1 K (fun i => if Nat.eqb K 1 then a else a + INR i * ((b - a) / INR (K - 1)))).
(** y[1:-1] of a 1-d array *)
Definition inner1 (y : nd R) : nd R := mk1 (size y - 2) (fun i => y.[S i]).
(** scipy.spatial.distance_matrix(X, Y) *)
Definition distance_matrix (X Y : nd R) : res (nd R) :=
  do (r, n) <- shape2 X;
  do (s, n') <- shape2 Y;
  do _ <- guard (Nat.eqb n n') ValueError;
  Ok (mk2 r s (fun i j => sqrt (sumf n (fun k => (X.[i, k] - Y.[j, k]) * (X.[i, k] - Y.[j, k]))))).
(** d = np.power(D.flatten(), 2); np.amin(d), np.argmin(d): the first index of
    the smallest entry; ValueError when D is empty *)
Definition amin_flat (D : nd R) : res (R * nat) :=
  let d := fun k => (D.[(k / ncols D)%nat, (k mod ncols D)%nat]) ^ 2 in
  match (nrows D * ncols D)%nat with
  | O => Err ValueError
  | S K => Ok (d (argmin_upto K d), argmin_upto K d)
  end.
(** g[i] = v *)
Definition upd1 (g : nat -> R) (i : nat) (v : R) : nat -> R := fun j => if Nat.eqb j i then v else g j.

(** utils/designs.py 8-28, interval_design, for an int N *)
Definition interval_design (a b : R) (N : Z) : res (nd R) :=
  do y <- linspace a b (N + 2);
  atleast_2d (inner1 y) "col".

(** utils/designs.py 106-136, _maximin_design_obj; the solver calls it with a
    1-d y *)
Definition maximin_obj (vert y : nd R) : res R :=
  do (Ny, n) <- shape2 vert;
  do _ <- guard (negb (Nat.eqb n 0)) ZeroDivisionError;
  let N := (size y / n)%nat in
  do Y <- reshape [N; n] y;
  do D <- distance_matrix Y Y;
  let D0 := mk2 N N (fun i j => D.[i, j] + 100000 * kron_delta i j) in
  do (d0star, _) <- amin_flat D0;
  do D1 <- distance_matrix Y vert;
  do (d1star, _) <- amin_flat D1;
  Ok (- Rmin d0star d1star).

(** utils/designs.py 138-181, _maximin_design_grad, on a 1-d y *)
Definition maximin_grad (vert y : nd R) : res (nd R) :=
  do (Ny, n) <- shape2 vert;
  do v <- reshape [(Ny * n)%nat] vert;
  do _ <- guard (negb (Nat.eqb n 0)) ZeroDivisionError;
  let N := (size y / n)%nat in
  do Y <- reshape [N; n] y;
  do D <- distance_matrix Y Y;
  let D0 := mk2 N N (fun i j => D.[i, j] + 100000 * kron_delta i j) in
  do (d0star, k0star) <- amin_flat D0;
  do D1 <- distance_matrix Y vert;
  do (d1star, k1star) <- amin_flat D1;
  let g :=
    if Rlt_dec d0star d1star then
      let istar := (k0star / N)%nat in
      let jstar := (k0star mod N)%nat in
      fold_left (fun g k => upd1 (upd1 g (istar * n + k)%nat (2 * (y.[(istar * n + k)%nat] - y.[(jstar * n + k)%nat])))
                                 (jstar * n + k)%nat (2 * (y.[(jstar * n + k)%nat] - y.[(istar * n + k)%nat])))
                (seq 0 n) (fun _ => 0)
    else
      let istar := (k1star / Ny)%nat in
      let jstar := (k1star mod Ny)%nat in
      fold_left (fun g k => upd1 g (istar * n + k)%nat (2 * (y.[(istar * n + k)%nat] - v.[(jstar * n + k)%nat])))
                (seq 0 n) (fun _ => 0) in
  Ok (mk1 (N * n) (fun q => - g q)).

(** ** Multistart loops (designs.py 72-84, optimizers.py 315-331 and 371-384):
    k runs, each must succeed, the best value below minf is kept *)
Section Multistart.
  Context {G : gen} {U L : Type}.
  Notation W := (world G U L).
  Fixpoint multistart (k : nat) (run : M W mres) (msg : string) (minf : R) (minres : option mres) : M W (option mres) :=
    match k with
    | O => mret minres
    | S k =>
        dom r <- run;
        if negb (mr_success r) then merr (Exc msg) else
        if Rlt_dec (mr_fun r) minf then multistart k run msg (mr_fun r) (Some r) else multistart k run msg minf minres
    end.
End Multistart.

Section Designs.
  Context {G : gen} {U L : Type}.
  Notation W := (world G U L).
  Variable B : backend.
  Variable convex_hull : nd R -> res (nd R).
  Variable eig : nd R -> res (nd R * nd R).
  Variable argsort : list R -> list nat.

  (** the problem handed to scipy.optimize.minimize, designs.py 61-67 and 78:
      A = np.kron(np.eye(N), equations[:,:n]), b = np.kron(np.ones(N), equations[:,n]) *)
  Definition maximin_problem (vert eqs : nd R) (N n : nat) (y0 : nd R) : mprob :=
    let A := kron (eye N) (cols_slice eqs 0 n) in
    let b := mk1 (N * nrows eqs) (fun i => 1 * eqs.[(i mod nrows eqs)%nat, n]) in
    MP (maximin_obj vert) y0 "SLSQP" (Some (maximin_grad vert)) []
       (Some (fun x => do Ax <- npdot A x; bcast Rminus Ax b, fun _ => Ok A)).

  (** utils/designs.py 30-88, maximin_design, for an int N.  The message of the
      exception is abbreviated; [res.x] is an array for SLSQP. *)
  Definition maximin_design (vert : nd R) (N : Z) : M W (nd R) :=
    dom (_, n) <- mlift (shape2 vert);
    dom eqs <- mlift (convex_hull vert);
    dom N <- mlift (dimZ N);
    dom curr_state <- get_state;
    dom _ <- seed 42;
    dom minres <- multistart 3
      (dom y0 <- normal2 N n; mlift (sp_minimize B (maximin_problem vert eqs N n y0)))
      "SLSQP failed with message" (10 ^ 10) None;
    dom _ <- set_state curr_state;
    mlift (match minres with
           | Some r => match mr_x r with XArr x => reshape [N; n] x | XFloat _ => Err AttributeError end
           | None => Err AttributeError
           end).

  (** utils/designs.py 90-104, gauss_hermite_design *)
  Definition gauss_hermite_design (N : nodes_arg) : res (nd R) :=
    do (x, _) <- gauss_hermite eig argsort N; Ok x.
End Designs.
