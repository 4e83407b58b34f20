(** Floating point, continued: the sums of integrals.py with rounding after
    every operation, as in M_Float.  The nodes and weights that
    av_quadrature_rule returns and the points that inverse returns are those of
    the real model; overflow is left out, and NMC is a number of the format. *)
From Coq Require Import String Reals ZArith List Lia Bool.
From Verif Require Import Prelude Py NumArr M_Misc M_SimRunners M_RespSurf M_Gradients M_Subspaces M_Quadrature M_QP M_Domains M_Designs M_ASRS M_Integrals M_Float.
Import ListNotations.
Open Scope R_scope.

(** utils/misc.py 297-304 on column arrays, as in cond_exp *)
Definition cond_exp_fl (F : format) (ord : nat -> stree) (f ind : nd R) : res (nd R * nd R) :=
  do (Ef, Vf) <- conditional_expectations_fl F ord (map (fun i => f.[i, 0%nat]) (seq 0 (nrows f))) (map (fun i => to_nat (ind.[i, 0%nat])) (seq 0 (nrows ind)));
  do E <- mapr finite Ef;
  do V <- mapr finite Vf;
  Ok (mk2 (List.length E) 1 (fun i _ => nth i E 0), mk2 (List.length V) 1 (fun i _ => nth i V 0)).

(** [np.dot(a.T, b)[0,0]] for two columns; [dord q] is the order in which the
    products of q entries are added *)
Definition dot_fl (F : format) (dord : nat -> dtree) (a b : nd R) : res R :=
  if negb (Nat.eqb (ncols a) 1 && Nat.eqb (ncols b) 1 && Nat.eqb (nrows a) (nrows b))%bool then Err ValueError else
  Ok (match nrows a with O => 0 | _ => dfl F (dord (nrows a)) (fun i => a.[i, 0%nat]) (fun i => b.[i, 0%nat]) end).

(** np.sqrt; a negative argument gives NaN, which is not a number of the format *)
Definition sqrt_fl (F : format) (s : R) : res R := if Rlt_dec s 0 then Err (Exc "NaN") else Ok (rnd F (sqrt s)).

Section FloatIntegrals.
  Context {G : gen} {U : Type}.
  Notation W := (world G U (nd R)).
  Notation ufunc := (ufun (U:=U) (nd R) (nd R)).
  Variable F : format.
  Variable ord : nat -> stree.
  Variable dord : nat -> dtree.
  Variable B : backend.
  Variable convex_hull : nd R -> res (nd R).
  Variable eig : nd R -> res (nd R * nd R).
  Variable argsort : list R -> list nat.
  Variable delaunay : nd R -> res (list (list nat) * (nd R -> list Z)).

  (** 118-178, quadrature_rule: the entries of the Kronecker product with ones
      are exact, the quotients are rounded *)
  Definition quadrature_rule_fl (a : pyarg avmap) (N NMC : pyarg Z) : Py.M W (nd R * nd R * nd R) :=
    match a, N, NMC with
    | NotA, _, _ => merr TypeError
    | _, NotA, _ => merr TypeError
    | _, _, NotA => merr TypeError
    | IsA a, IsA N, IsA NMC =>
        dom (Yp, Yw) <- av_quadrature_rule B convex_hull eig argsort delaunay a N;
        dom (Xp, ind) <- av_inverse B a Yp (IsA NMC);
        dom K <- mlift (dimZ NMC);
        mret (Xp, amap (fun x => rnd F (x / IZR NMC)) (kron Yw (ones2 K 1)), ind)
    end.

  (** 57-80, the arithmetic of integrate on the function values V *)
  Definition estimate_fl (V Xw ind : nd R) (NMC : Z) : res (R * R * R) :=
    do (Ef, Vf) <- cond_exp_fl F ord V ind;
    do (w, _) <- cond_exp_fl F ord (amap (fun x => rnd F (x * IZR NMC)) Xw) ind;
    do mu <- dot_fl F dord Ef w;
    do s <- dot_fl F dord Vf (amap (fun x => rnd F (x * x)) w);
    do r <- sqrt_fl F (rnd F (s / IZR NMC));
    let h := rnd F (rnd F (196 / 100) * r) in
    Ok (mu, rnd F (mu - h), rnd F (mu + h)).

  (** 13-80, integrate *)
  Definition integrate_fl (fn : pyarg ufunc) (a : pyarg avmap) (N NMC : pyarg Z) : Py.M W (R * R * R) :=
    match a, N with
    | NotA, _ => merr TypeError
    | _, NotA => merr TypeError
    | IsA _, IsA _ =>
        dom (Xp, Xw, ind) <- quadrature_rule_fl a N NMC;
        dom NMC <- mlift (match NMC with IsA k => Ok k | NotA => Err TypeError end);
        dom f <- mlift (SimulationRunner_init fn);
        dom V <- sim_run f Xp;
        mlift (estimate_fl V Xw ind NMC)
    end.

  (** 82-116, av_integrate of a callable *)
  Definition av_integrate_fl (fn : pyarg ufunc) (a : pyarg avmap) (N : pyarg Z) : Py.M W R :=
    match a, N with
    | NotA, _ => merr TypeError
    | _, NotA => merr TypeError
    | IsA a, IsA N =>
        dom (Yp, Yw) <- av_quadrature_rule B convex_hull eig argsort delaunay a N;
        dom f <- mlift (SimulationRunner_init fn);
        dom V <- sim_run f Yp;
        mlift (dot_fl F dord Yw V)
    end.
End FloatIntegrals.
