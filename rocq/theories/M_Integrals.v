(** Model of active_subspaces/integrals.py *)
From Coq Require Import String Reals Lra Lia List Arith ZArith Bool.
From Verif Require Import Prelude Py NumArr M_Misc M_SimRunners M_RespSurf M_Gradients M_Subspaces M_Quadrature M_QP M_Domains M_Designs M_ASRS.
Import ListNotations.
Open Scope R_scope.

(** ** np.histogram with an array of bin edges *)

Definition Rltb (a b : R) : bool := if Rlt_dec a b then true else false.
(** searchsorted of the sorted sample, side 'left' and 'right' *)
Definition count_lt (l : list R) (x : R) : Z := Z.of_nat (List.length (filter (fun v => Rltb v x) l)).
Definition count_le (l : list R) (x : R) : Z := Z.of_nat (List.length (filter (fun v => Rleb v x) l)).
Fixpoint increasing (l : list R) : bool :=
  match l with
  | a :: (b :: _) as t => (Rleb a b && increasing t)%bool
  | _ => true
  end.
(** np.histogram(a, bins=edges)[0]; cum_n = searchsorted left for all edges but
    the last, right for the last; the result is its difference *)
Definition histogram (l : list R) (edges : list R) : res (list R) :=
  if increasing edges then
    let k := List.length edges in
    let cum i := if Nat.eqb (S i) k then count_le l (nth i edges 0) else count_lt l (nth i edges 0) in
    Ok (map (fun i => IZR (cum (S i) - cum i)) (seq 0 (k - 1)))
  else Err ValueError.

(** avfun of av_integrate: a response surface, or something to be called *)
Inductive avfun {U : Type} := AVSurface (s : asrs) | AVFun (f : pyarg (ufun (U := U) (nd R) (nd R))).

Section Integrals.
  Context {G : gen} {U : Type}.
  Notation W := (world G U (nd R)).
  Notation ufunc := (ufun (U:=U) (nd R) (nd R)).
  Variable B : backend.
  Variable convex_hull : nd R -> res (nd R).
  Variable eig : nd R -> res (nd R * nd R).
  Variable argsort : list R -> list nat.
  (** scipy.spatial.Delaunay(points): the simplices as lists of row numbers, and
      find_simplex, which gives a simplex number or -1 for each row *)
  Variable delaunay : nd R -> res (list (list nat) * (nd R -> list Z)).

  (** count / float(NX); NX = 0 gives NaN, which is not modelled *)
  Definition over (NX : nat) (c : R) : R := c / INR NX.

  (** 216-260, interval_quadrature_rule; the argument range of np.histogram is
      not used when bins are given, but np.amin of an empty array raises *)
  Definition interval_quadrature_rule (d : avdomain) (N NX : Z) : M W (nd R * nd R) :=
    dom W1 <- mlift (need (s_W1 (d_subs d)));
    dom vert <- mlift (need (d_vertY d));
    dom a <- mlift (get2 vert 0 0);
    dom b <- mlift (get2 vert 1 0);
    dom (m, _) <- mlift (shape2 W1);
    dom y <- mlift (linspace a b (N + 1));
    let K := size y in
    let points := mk2 (K - 1) 1 (fun i _ => / 2 * (y.[S i] + y.[i])) in
    dom NX <- mlift (dimZ NX);
    dom Xu <- uniform2 (-1) 1 NX m;
    dom Ys <- mlift (npdot Xu W1);
    dom Ys <- mlift (reshape [NX] Ys);
    dom _ <- mlift (guard (Nat.ltb 0 K) ValueError);
    dom h <- mlift (histogram (map (fun i => Ys.[i]) (seq 0 NX)) (map (fun i => y.[i]) (seq 0 K)));
    dom _ <- mlift (guard (Nat.ltb 0 NX) (Exc "NaN weights"));
    mret (points, mk2 (K - 1) 1 (fun i _ => over NX (nth i h 0))).

  (** np.mean(points[t], axis=0) *)
  Definition centroid (pts : nd R) (t : list nat) : list R :=
    map (fun j => sumr (map (fun i => pts.[i, j]) t) / INR (List.length t)) (seq 0 (ncols pts)).
  (** 262-312, zonotope_quadrature_rule *)
  Definition zonotope_quadrature_rule (d : avdomain) (N NX : Z) : M W (nd R * nd R) :=
    dom vert <- mlift (need (d_vertY d));
    dom W1 <- mlift (need (s_W1 (d_subs d)));
    dom (m, n) <- mlift (shape2 W1);
    dom D <- maximin_design B convex_hull vert N;
    dom y <- mlift (vstack vert D);
    dom (simplices, find_simplex) <- mlift (delaunay y);
    let c := map (centroid y) simplices in
    let k := List.length simplices in
    let points := mk2 k (ncols y) (fun i j => nth j (nth i c []) 0) in
    dom NX <- mlift (dimZ NX);
    dom Xu <- uniform2 (-1) 1 NX m;
    dom Ys <- mlift (npdot Xu W1);
    let loc := find_simplex Ys in
    dom _ <- mlift (guard (Nat.ltb 0 NX) (Exc "NaN weights"));
    let wt i := over NX (INR (List.length (filter (fun s => Z.eqb s (Z.of_nat i)) loc))) in
    dom Yp <- mlift (reshape [k; n] points);
    mret (Yp, mk2 k 1 (fun i _ => wt i)).

  (** 180-214, av_quadrature_rule *)
  Definition av_quadrature_rule (a : avmap) (N : Z) : M W (nd R * nd R) :=
    let d := av_domain a in
    dom W1 <- mlift (need (s_W1 (d_subs d)));
    dom (m, n) <- mlift (shape2 W1);
    match d_kind d with
    | DUnbounded => mlift (do NN <- roots N n; gauss_hermite eig argsort (NList NN))
    | DBounded => if Nat.eqb n 1 then interval_quadrature_rule d N 10000 else zonotope_quadrature_rule d N 10000
    | DBase => merr (Exc "There is a problem with the avmap.domain.")
    end.

  (** 118-178, quadrature_rule *)
  Definition quadrature_rule (a : pyarg avmap) (N NMC : pyarg Z) : M W (nd R * nd R * nd R) :=
    match a, N, NMC with
    | NotA, _, _ => merr TypeError
    | _, NotA, _ => merr TypeError
    | _, _, NotA => merr TypeError
    | IsA a, IsA N, IsA NMC =>
        dom (Yp, Yw) <- av_quadrature_rule a N;
        dom (Xp, ind) <- av_inverse B a Yp (IsA NMC);
        dom K <- mlift (dimZ NMC);
        mret (Xp, amap (fun x => x / IZR NMC) (kron Yw (ones2 K 1)), ind)
    end.

  (** 13-80, integrate; fun is a callable or a SimulationRunner around one *)
  Definition integrate (fn : pyarg ufunc) (a : pyarg avmap) (N NMC : pyarg Z) : M W (R * R * R) :=
    match a, N with
    | NotA, _ => merr TypeError
    | _, NotA => merr TypeError
    | IsA _, IsA _ =>
        dom (Xp, Xw, ind) <- quadrature_rule a N NMC;
        dom NMC <- mlift (match NMC with IsA k => Ok k | NotA => Err TypeError end);
        dom f <- mlift (SimulationRunner_init fn);
        dom F <- sim_run f Xp;
        dom (Ef, Vf) <- mlift (cond_exp F ind);
        dom (w, _) <- mlift (cond_exp (amap (fun x => x * IZR NMC) Xw) ind);
        dom mu <- mlift (npdot (tr Ef) w);
        dom s <- mlift (npdot (tr Vf) (amap (fun x => x * x) w));
        let h := 196 / 100 * sqrt (s.[0%nat, 0%nat] / IZR NMC) in
        mret (mu.[0%nat, 0%nat], mu.[0%nat, 0%nat] - h, mu.[0%nat, 0%nat] + h)
    end.

  (** 82-116, av_integrate *)
  Definition av_integrate (f : avfun) (a : pyarg avmap) (N : pyarg Z) : M W R :=
    match a, N with
    | NotA, _ => merr TypeError
    | _, NotA => merr TypeError
    | IsA a, IsA N =>
        dom (Yp, Yw) <- av_quadrature_rule a N;
        dom F <- match f with
                 | AVSurface s => mlift (do (v, _) <- predict_av s Yp false; Ok v)
                 | AVFun f => dom f <- mlift (SimulationRunner_init f); sim_run f Yp
                 end;
        dom mu <- mlift (npdot (tr Yw) F);
        mlift (get2 mu 0 0)
    end.
End Integrals.
