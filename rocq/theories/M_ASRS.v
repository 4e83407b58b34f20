(** Model of active_subspaces/response_surfaces.py *)
From Coq Require Import String Reals Lra Lia List Arith ZArith Bool.
From Verif Require Import Prelude Py NumArr M_Misc M_SimRunners M_RespSurf M_Gradients M_Subspaces M_Quadrature M_QP M_Domains M_Designs.
Import ListNotations.
Open Scope R_scope.

(** ** conditional_expectations on arrays (utils/misc.py 272-304) *)

(** int(x) of a non-negative float *)
Definition to_nat (x : R) : nat := Z.to_nat (Int_part x).
(** a float that is not NaN or infinite; the other branch is never taken here
    (every index between 0 and the largest occurs in [ind]) *)
Definition finite (a : xr) : res R := match a with Fin r => Ok r | _ => Err (Exc "NaN") end.
(** f and ind are column arrays; the results are columns *)
Definition cond_exp (f ind : nd R) : res (nd R * nd R) :=
  do (Ef, Vf) <- conditional_expectations (map (fun i => f.[i, 0%nat]) (seq 0 (nrows f))) (map (fun i => to_nat (ind.[i, 0%nat])) (seq 0 (nrows ind)));
  do E <- mapr finite Ef;
  do V <- mapr finite Vf;
  Ok (mk2 (List.length E) 1 (fun i _ => nth i E 0), mk2 (List.length V) 1 (fun i _ => nth i V 0)).

(** ** Response surfaces *)

Definition predictor := nd R -> bool -> res (nd R * option (nd R)).
(** a RadialBasisApproximation, a PolynomialApproximation, or an object of
    another class with its own train and predict; [None]: not trained *)
Inductive respsurf :=
| RSRbf (N : nat) (st : option rbf)
| RSPoly (N : nat) (st : option poly)
| RSUser (train : nd R -> nd R -> res predictor) (st : option predictor).
(** respsurf.predict(Y, compgrad); an untrained surface raises *)
Definition rs_predict (r : respsurf) : predictor := fun Y g =>
  match r with
  | RSRbf _ (Some s) => rbf_predict s Y g
  | RSPoly _ (Some s) => poly_predict s Y g
  | RSUser _ (Some p) => p Y g
  | _ => Err TypeError
  end.

(** the attributes of ActiveSubspaceResponseSurface, lines 26-27 *)
Record asrs := ASRS { as_rs : respsurf; as_map : avmap }.
(** 29-49, __init__; the default surface is RadialBasisApproximation(N=2) *)
Definition asrs_init (a : pyarg avmap) (r : option respsurf) : res asrs :=
  match a with
  | NotA => Err TypeError
  | IsA a => Ok (ASRS (match r with None => RSRbf 2 None | Some r => r end) a)
  end.

(** 133-157 and 159-177, predict_av, gradient_av; None[...] raises TypeError *)
Definition predict_av (s : asrs) (Y : nd R) (compgrad : bool) : res (nd R * option (nd R)) := rs_predict (as_rs s) Y compgrad.
Definition gradient_av (s : asrs) (Y : nd R) : res (option (nd R)) := do (_, df) <- rs_predict (as_rs s) Y true; Ok df.
(** 179-208, predict *)
Definition asrs_predict (s : asrs) (X : nd R) (compgrad : bool) : res (nd R * option (nd R)) :=
  do (Y, _) <- av_forward (as_map s) X;
  do (f, dfdy) <- predict_av s Y compgrad;
  if compgrad then
    do W1 <- need (s_W1 (d_subs (av_domain (as_map s))));
    do D <- need dfdy;
    do dfdx <- npdot D (tr W1);
    Ok (f, Some dfdx)
  else Ok (f, None).
(** 210-226, gradient; 228-229, __call__ *)
Definition asrs_gradient (s : asrs) (X : nd R) : res (option (nd R)) := do (_, df) <- asrs_predict s X true; Ok df.
Definition asrs_call (s : asrs) (X : nd R) : res (nd R) := do (f, _) <- asrs_predict s X false; Ok f.

Section Train.
  Variable solve : nd R -> nd R -> res (nd R).
  Variable cholesky : nd R -> res (nd R).
  Variable fminbound : (R -> res R) -> res R.
  Variable lstsq : nd R -> nd R -> res (nd R).

  (** 51-61, _train: the surface after training.  Eigenvalues and noise go to
      radial bases only. *)
  Definition rs_train (r : respsurf) (Y f : nd R) (v e : option (nd R)) : res respsurf :=
    match r with
    | RSRbf N _ => do s <- rbf_train solve cholesky fminbound N Y f v e; Ok (RSRbf N (Some s))
    | RSPoly N _ => do s <- poly_train lstsq N Y f None; Ok (RSPoly N (Some s))
    | RSUser t _ => do p <- t Y f; Ok (RSUser t (Some p))
    end.
  Definition asrs_train (s : asrs) (Y f : nd R) (v : option (nd R)) : res asrs :=
    do r <- rs_train (as_rs s) Y f v (s_eigenvals (d_subs (av_domain (as_map s))));
    Ok (ASRS r (as_map s)).
  (** 63-85, train_with_data *)
  Definition train_with_data (s : asrs) (X f : nd R) (v : option (nd R)) : res asrs :=
    do (Y, _) <- av_forward (as_map s) X;
    asrs_train s Y f v.

  Section World.
    Context {G : gen} {U : Type}.
    Notation W := (world G U (nd R)).
    Notation ufunc := (ufun (U:=U) (nd R) (nd R)).
    Variable B : backend.
    Variable convex_hull : nd R -> res (nd R).
    Variable eig : nd R -> res (nd R * nd R).
    Variable argsort : list R -> list nat.

    (** int(np.floor(np.power(N, 1.0/n))); a negative base gives NaN unless
        n = 1, and int(NaN) raises ValueError *)
    Definition iroot (N : Z) (n : nat) : res Z :=
      if Z.ltb N 0 then (if Nat.eqb n 1 then Ok N else Err ValueError)
      else if Z.eqb N 0 then Ok 0%Z
      else Ok (Int_part (Rpower (IZR N) (/ INR n))).
    (** [iroot for i in range(n)]: not evaluated when n = 0 *)
    Definition roots (N : Z) (n : nat) : res (list Z) := mapr (fun _ => iroot N n) (seq 0 n).

    (** 231-297, av_design *)
    Definition av_design (a : pyarg avmap) (N NMC : pyarg Z) : M W (nd R * nd R * nd R) :=
      match a, N, NMC with
      | NotA, _, _ => merr TypeError
      | _, NotA, _ => merr (Exc "N should be an integer.")
      | _, _, NotA => merr (Exc "NMC should be an integer.")
      | IsA a, IsA N, IsA NMC =>
          let d := av_domain a in
          dom W1 <- mlift (need (s_W1 (d_subs d)));
          dom (m, n) <- mlift (shape2 W1);
          dom Y <- match d_kind d with
            | DUnbounded => mlift (do NN <- roots N n; gauss_hermite_design eig argsort (NList NN))
            | DBounded =>
                dom vert <- mlift (need (d_vertY d));
                if Nat.eqb n 1 then mlift (do a <- get2 vert 0 0; do b <- get2 vert 1 0; interval_design a b N)
                else maximin_design B convex_hull vert N
            | DBase => merr (Exc "There is a problem with the avmap.domain.")
            end;
          dom (X, ind) <- av_inverse B a Y (IsA NMC);
          mret (Y, X, ind)
      end.

    (** np.amax of a column *)
    Definition amax_col (x : nd R) : res R :=
      match nrows x with
      | O => Err ValueError
      | S K => Ok (fold_left (fun a i => Rmax a (x.[i, 0%nat])) (seq 1 K) (x.[0%nat, 0%nat]))
      end.

    (** 87-131, train_with_interface *)
    Definition train_with_interface (s : asrs) (fn : pyarg ufunc) (N NMC : pyarg Z) : M W asrs :=
      dom (Y, X, ind) <- av_design (IsA (as_map s)) N NMC;
      dom (Y, X, ind) <-
        match d_kind (av_domain (as_map s)) with
        | DBounded =>
            dom vX <- mlift (need (d_vertX (av_domain (as_map s))));
            dom vY <- mlift (need (d_vertY (av_domain (as_map s))));
            dom X' <- mlift (vstack X vX);
            dom Y' <- mlift (vstack Y vY);
            dom mx <- mlift (amax_col ind);
            let iind := mk2 (nrows vX) 1 (fun k _ => mx + 1 + INR k) in     (* np.arange(il, iu) *)
            dom ind' <- mlift (vstack ind iind);
            mret (Y', X', ind')
        | _ => mret (Y, X, ind)
        end;
      dom f <- mlift (SimulationRunner_init fn);
      dom F <- sim_run f X;
      dom (Ef, Vf) <- mlift (cond_exp F ind);
      mlift (asrs_train s Y Ef (Some Vf)).
  End World.
End Train.
