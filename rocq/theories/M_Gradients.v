(** Model of active_subspaces/gradients.py *)
From Coq Require Import Reals Lra Lia List Arith ZArith String Bool.
From Verif Require Import Prelude Py NumArr M_Misc M_SimRunners.
Import ListNotations.
Open Scope R_scope.

(** ceil(x) as an integer *)
Definition ceilZ (x : R) : Z := (- (up (- x) - 1))%Z.

Section Gradients.
  Context {G : gen} {U : Type}.
  Notation W := (world G U (nd R)).
  Notation ufunc := (ufun (U:=U) (nd R) (nd R)).

  (** np.argsort of a 1-d array; np.linalg.lstsq(A, b)[0] *)
  Variable argsort : list R -> list nat.
  Variable lstsq : nd R -> nd R -> res (nd R).

  (** gradients.py 56: squared distances of all samples to sample [ii] *)
  Definition sqdist (X : nd R) (i j : nat) : R :=
    sumf (ncols X) (fun k => (X.[i, k] - X.[j, k]) * (X.[i, k] - X.[j, k])).
  Definition ll_D2 (X : nd R) (ii : nat) : list R := map (fun i => sqdist X i ii) (seq 0 (nrows X)).

  (** gradients.py 57-58: [ind = argsort(D2); ind = ind[D2 != 0]].  The mask is
      indexed by sample number but applied to sorted positions; this is what
      the code does. *)
  Definition mask_select {A} (l : list A) (mask : list bool) : list A :=
    map fst (filter (fun p => snd p) (combine l mask)).
  Definition neq0b (x : R) : bool := if Req_EM_T x 0 then false else true.
  Definition ll_ind (X : nd R) (ii : nat) : list nat :=
    mask_select (argsort (ll_D2 X ii)) (map neq0b (ll_D2 X ii)).

  (** gradients.py 59-62: one local fit around sample [ii].
      X[ind[:p],:] and f[ind[:p]] are row selections; hstack with (p,1) ones
      fails when fewer than p rows were selected. *)
  Definition take_rows (X : nd R) (ind : list nat) : res (nd R) :=
    if forallb (fun k => Nat.ltb k (nrows X)) ind
    then Ok (mk2 (List.length ind) (ncols X) (fun i j => X.[nth i ind 0%nat, j]))
    else Err IndexError.
  Definition ll_fit (X f weights : nd R) (p ii : nat) : res (nd R) :=
    let sel := firstn p (ll_ind X ii) in
    do Xs <- take_rows X sel;
    do A0 <- hstack (ones2 p 1) Xs;
    do wii <- (if Nat.ltb ii (nrows weights) then Ok (weights.[ii, 0%nat]) else Err IndexError);
    do fs <- take_rows f sel;
    lstsq (amap (fun a => a * sqrt wii) A0) (amap (fun a => a * sqrt wii) fs).

  (** gradients.py 6-63, local_linear_gradients.  [p] is None, an int, or
      something else. *)
  Definition ll_p (p : option (pyarg Z)) (M m : nat) : res Z :=
    match p with
    | None => Ok (Z.of_nat (Nat.min (17 * m / 10) M))   (* line 41: floor(1.7 m) *)
    | Some (IsA z) => Ok z
    | Some NotA => Err TypeError
    end.
  Definition ll_MM (M m : nat) : res nat :=               (* line 51 *)
    match m with
    | O => Err ValueError                                 (* int(nan) *)
    | _ => Ok (Nat.min (Z.to_nat (ceilZ (10 * INR m * ln (INR m)))) (M - 1))
    end.
  Definition local_linear_gradients (X f : nd R) (p : option (pyarg Z)) (weights : option (nd R)) : M W (nd R) :=
    dom (X, M, m) <- mlift (process_inputs X);
    if Nat.leb M m then merr (Exc "Not enough samples for local linear models.") else
    dom pz <- mlift (ll_p p M m);
    if (Z.ltb pz (Z.of_nat m + 1) || Z.ltb (Z.of_nat M) pz)%bool
    then merr (Exc "p must be between m+1 and M") else
    let p := Z.to_nat pz in
    let weights := match weights with None => mk2 M 1 (fun _ _ => / INR M) | Some w => w end in
    dom MM <- mlift (ll_MM M m);
    dom rows <- mmap (fun _ : nat =>
        dom ii <- draw_randint M;
        mlift (ll_fit X f weights p ii)) (seq 0 MM);
    mret (mk2 MM m (fun i j => (nth i rows (zeros2 (S m) 1)).[S j, 0%nat])).

  (** gradients.py 87-88: the evaluation points *)
  Definition fd_points (X : nd R) (M m : nat) (h : R) : res (nd R) :=
    do S0 <- vstack (zeros2 1 m) (eye m);
    bcast2 Rplus (kron (ones2 (m + 1) 1) X) (amap (Rmult h) (kron S0 (ones2 M 1))).

  (** gradients.py 65-97, finite_difference_gradients.  [fn] is a callable or
      a SimulationRunner holding one ([IsA]), or not callable ([NotA]). *)
  Definition finite_difference_gradients (X : nd R) (fn : pyarg ufunc) (h : R) : M W (nd R) :=
    dom (X, M, m) <- mlift (process_inputs X);
    dom XX <- mlift (fd_points X M m h);
    dom f <- mlift (SimulationRunner_init fn);
    dom F <- sim_run f XX;
    dom F1 <- mlift (reshape [m; M] (rows_slice F M (nrows F)));   (* F[M:].reshape((m, M)) *)
    dom D <- mlift (bcast2 Rminus (tr F1) (rows_slice F 0 M));     (* .transpose() - F[:M] *)
    mlift (reshape [M; m] (amap (fun a => a / h) D)).
End Gradients.
