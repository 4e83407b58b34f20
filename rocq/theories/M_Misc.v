(** Model of active_subspaces/utils/misc.py *)
From Coq Require Import Reals Lra Lia List Arith ZArith String Bool.
From Verif Require Import Prelude Py NumArr.
Import ListNotations.
Open Scope R_scope.

(** utils/misc.py 209-232, process_inputs: [M, m = X.shape] if rank 2, else
    ValueError; [X.reshape((M,m))]. *)
Definition process_inputs {A} (X : nd A) : res (nd A * nat * nat) :=
  match shape X with
  | [M; m] => do X' <- reshape [M; m] X; Ok (X', M, m)
  | _ => Err ValueError
  end.

(** utils/misc.py 234-270, process_inputs_outputs *)
Definition process_inputs_outputs {A} (X f : nd A) : res (nd A * nd A * nat * nat) :=
  do (X', M, m) <- process_inputs X;
  match shape f with
  | [Mf; mf] =>
      if negb (Nat.eqb Mf M) then Err (Exc "Different number of inputs and outputs.") else
      if negb (Nat.eqb mf 1) then Err (Exc "Only scalar-valued functions.") else
      do f' <- reshape [M; 1%nat] f; Ok (X', f', M, m)
  | _ => Err ValueError
  end.

(** utils/misc.py 48-121, BoundedNormalizer.  Entries are [xr] because line 99
    divides by [ub - lb]. *)
Record BoundedNormalizer := { bn_lb : nd xr; bn_ub : nd xr }.

(** lines 78-80: [m = lb.size]; both bounds reshaped to (1, m) *)
Definition bounded_init (lb ub : nd xr) : res BoundedNormalizer :=
  let m := size lb in
  do lb' <- reshape [1%nat; m] lb;
  do ub' <- reshape [1%nat; m] ub;
  Ok {| bn_lb := lb'; bn_ub := ub' |}.

(** lines 98-100: [2.0 * (X - lb) / (ub - lb) - 1.0] *)
Definition bounded_normalize (s : BoundedNormalizer) (X : nd xr) : res (nd xr) :=
  do (X, M, m) <- process_inputs X;
  do d <- bcast2 xsub X (bn_lb s);
  do w <- bcast2 xsub (bn_ub s) (bn_lb s);
  do q <- bcast2 xdiv (amap (xmul (Fin 2)) d) w;
  Ok (amap (fun a => xsub a (Fin 1)) q).

(** lines 119-121: [(ub - lb) * (X + 1.0) / 2.0 + lb] *)
Definition bounded_unnormalize (s : BoundedNormalizer) (X : nd xr) : res (nd xr) :=
  do (X, M, m) <- process_inputs X;
  do w <- bcast2 xsub (bn_ub s) (bn_lb s);
  do p <- bcast2 xmul w (amap (fun a => xadd a (Fin 1)) X);
  bcast2 xadd (amap (fun a => xdiv a (Fin 2)) p) (bn_lb s).

(** utils/misc.py 123-207, UnboundedNormalizer.  [cholesky] and [solve] are the
    LAPACK routines behind numpy.linalg. *)
Section Unbounded.
  Variable cholesky : nd R -> res (nd R).
  Variable solve : nd R -> nd R -> res (nd R).

  Record UnboundedNormalizer := { un_mu : nd R; un_L : nd R }.

  (** lines 159-160 *)
  Definition unbounded_init (mu C : nd R) : res UnboundedNormalizer :=
    do mu' <- reshape [1%nat; size mu] mu;
    do L <- cholesky C;
    Ok {| un_mu := mu'; un_L := L |}.

  (** lines 179-182: [solve(L, (X - mu).T).T] *)
  Definition unbounded_normalize (s : UnboundedNormalizer) (X : nd R) : res (nd R) :=
    do (X, M, m) <- process_inputs X;
    do X0 <- bcast2 Rminus X (un_mu s);
    do V <- solve (un_L s) (tr X0);
    Ok (tr V).

  (** lines 204-207: [dot(X, L.T) + mu] *)
  Definition unbounded_unnormalize (s : UnboundedNormalizer) (X : nd R) : res (nd R) :=
    do (X, M, m) <- process_inputs X;
    do X0 <- mdot X (tr (un_L s));
    bcast2 Rplus X0 (un_mu s).
End Unbounded.

(** utils/misc.py 272-304, conditional_expectations.  [f] is the flattened
    list of function values with its index array (f and ind both M-by-1).
    [np.amax] of an empty array raises ValueError; mean/var of an empty
    selection are NaN.  The index entries are naturals (they come from
    [_rotate_x]). *)
Definition select (f : list R) (ind : list nat) (i : nat) : list R :=
  map fst (filter (fun p => Nat.eqb (snd p) i) (combine f ind)).
Definition np_mean (l : list R) : xr :=
  match l with [] => NaN | _ => Fin (sumr l / INR (List.length l)) end.
Definition np_var (l : list R) : xr :=
  match l with
  | [] => NaN
  | _ => let mu := sumr l / INR (List.length l) in
         Fin (sumr (map (fun x => (x - mu) * (x - mu)) l) / INR (List.length l))
  end.
Definition np_amax_nat (l : list nat) : res nat :=
  match l with [] => Err ValueError | _ => Ok (list_max l) end.

Definition conditional_expectations (f : list R) (ind : list nat) : res (list xr * list xr) :=
  do mx <- np_amax_nat ind;
  if negb (Nat.eqb (List.length f) (List.length ind)) then Err IndexError else
  let n := S mx in
  let Ef := map (fun i => np_mean (select f ind i)) (seq 0 n) in
  let Vf := map (fun i => np_var (select f ind i)) (seq 0 n) in
  Ok (Ef, Vf).

(** utils/misc.py 325-353, atleast_2d on an array of rank <= 2.
    [oned_as]: 'row' -> A[None,:], 'col' -> A[:,None]; a 0-d array cannot be
    indexed with [None,:] (IndexError). *)
Definition atleast_2d {A} (X : nd A) (oned_as : string) : res (nd A) :=
  match shape X with
  | [] => if (String.eqb oned_as "row" || String.eqb oned_as "col")%bool
          then Err IndexError else Err (Exc "oned_as must be 'row' or 'col' ")
  | [n] => if String.eqb oned_as "row" then Ok (mk2 1 n (fun _ j => X.[j]))
           else if String.eqb oned_as "col" then Ok (mk2 n 1 (fun i _ => X.[i]))
           else Err (Exc "oned_as must be 'row' or 'col' ")
  | _ => Ok X
  end.
