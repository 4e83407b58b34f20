(** Model of active_subspaces/optimizers.py *)
From Coq Require Import String Reals Lra Lia List Arith ZArith Bool.
From Verif Require Import Prelude Py NumArr M_Misc M_RespSurf M_Gradients M_Subspaces M_QP M_Domains M_Designs M_ASRS.
Import ListNotations.
Open Scope R_scope.

(** the private attributes _bz, _zAy, _zAz set by MinVariableMap.train, lines 63-65 *)
Record mvm := MVM { mv_bz : nd R; mv_zAy : nd R; mv_zAz : nd R }.

Section Optimizers.
  Context {G : gen} {U L : Type}.
  Notation W := (world G U L).
  Variable B : backend.
  (** numpy.linalg.lstsq(A, b)[0], numpy.linalg.solve *)
  Variable lstsq : nd R -> nd R -> res (nd R).
  Variable solve : nd R -> nd R -> res (nd R).
  (** scipy.optimize.fminbound(f, a, b, full_output=1): the point, the value,
      and whether the error flag is non-zero.  The tolerance and the iteration
      limit are constants and not represented. *)
  Variable fminbound : (R -> res R) -> R -> R -> res (R * R * bool).

  (** optimizers.py 48-51: the number of directions of the quadratic *)
  Definition mvm_p (m n : nat) : nat := if Nat.ltb 2 (m - n) then (n + 2)%nat else (n + 1)%nat.

  (** optimizers.py 28-65, MinVariableMap.train on an object with domain d *)
  Definition mvm_train (d : avdomain) (X f : nd R) : res mvm :=
    do (X, f, M, m0) <- process_inputs_outputs X f;
    do W1 <- need (s_W1 (d_subs d));
    do W2 <- need (s_W2 (d_subs d));
    do (m, n) <- shape2 W1;
    do Wm <- need (s_eigenvecs (d_subs d));
    let Wp := cols_slice Wm 0 (mvm_p m n) in
    do Yp <- npdot X Wp;
    do pr <- poly_train lstsq 2 Yp f None;
    do Ar <- need (pa_H pr);
    do b <- npdot Wp (pa_g pr);
    do AW <- npdot Ar (tr Wp);
    do A <- npdot Wp AW;
    do bz <- npdot (tr W2) b;
    do AW1 <- npdot A W1;
    do zAy <- npdot (tr W2) AW1;
    do AW2 <- npdot A W2;
    do zAz <- npdot (tr W2) AW2;
    do _ <- guard (Nat.leb n m) ValueError;
    do Q <- bcast2 Rplus zAz (amap (fun x => 1 / 100 * x) (eye (m - n)));
    Ok (MVM bz zAy Q).

  (** c = self._bz.reshape((m-n,1)) + np.dot(self._zAy, y).reshape((m-n,1)),
      lines 111 and 162 *)
  Definition mvm_c (v : mvm) (y : nd R) (k : nat) : res (nd R) :=
    do b <- reshape [k; 1%nat] (mv_bz v);
    do Ay <- npdot (mv_zAy v) y;
    do Ay <- reshape [k; 1%nat] Ay;
    bcast2 Rplus b Ay.
  (** np.array(Zlist).reshape((NY, m-n, N)) for the (m-n)-by-1 arrays of Zlist *)
  Definition stack_z (l : list (nd R)) (NY k N : nat) : res (nd R) :=
    reshape [NY; k; N] (mk3 (List.length l) k 1 (fun i j _ => (nth i l (mk2 k 1 (fun _ _ => 0))).[j, 0%nat])).

  (** optimizers.py 76-119, BoundedMinVariableMap.regularize_z of a trained map *)
  Definition bmvm_regularize (d : avdomain) (v : mvm) (Y : nd R) (N : Z) : M W (nd R) :=
    if negb (Z.eqb N 1) then merr (Exc "MinVariableMap needs N=1.") else
    dom W1 <- mlift (need (s_W1 (d_subs d)));
    dom W2 <- mlift (need (s_W2 (d_subs d)));
    dom (m, n) <- mlift (shape2 W1);
    let NY := nrows Y in
    let qps := qp_init B "GUROBI" in
    dom A_ineq <- mlift (vstack W2 (amap Ropp W2));
    dom _ <- mlift (guard (Nat.leb n m) ValueError);
    let k := (m - n)%nat in
    dom Zlist <- mmap (fun i =>
        let y := row1 Y i in
        dom c <- mlift (mvm_c v y k);
        dom s <- mlift (shift_of W1 y m);
        dom b_ineq <- mlift (vstack (amap (fun x => -1 - x) s) (amap (fun x => -1 + x) s));
        quadratic_program_ineq B qps c (mv_zAz v) A_ineq b_ineq) (seq 0 NY);
    mlift (stack_z Zlist NY k 1).

  (** optimizers.py 130-165, UnboundedMinVariableMap.regularize_z of a trained map *)
  Definition umvm_regularize (d : avdomain) (v : mvm) (Y : nd R) (N : Z) : M W (nd R) :=
    if negb (Z.eqb N 1) then merr (Exc "MinVariableMap needs N=1.") else
    dom W1 <- mlift (need (s_W1 (d_subs d)));
    dom (m, n) <- mlift (shape2 W1);
    let NY := nrows Y in
    dom _ <- mlift (guard (Nat.leb n m) ValueError);
    let k := (m - n)%nat in
    dom Zlist <- mmap (fun i => dom c <- mlift (mvm_c v (row1 Y i) k); mlift (solve (mv_zAz v) c)) (seq 0 NY);
    mlift (stack_z Zlist NY k 1).

  (** optimizers.py 260-293, interval_minimize; avfun gets a NumPy float, an
      array of shape () *)
  Definition interval_minimize (avfun : nd R -> res R) (d : avdomain) : res (nd R * R) :=
    match d_vertY d with
    | None => Err TypeError
    | Some V =>
        do yl <- get2 V 0 0;
        do yu <- get2 V 1 0;
        do (y, fval, flag) <- fminbound (fun y => avfun (ND [] (fun _ => y))) yl yu;
        if flag then Err (Exc "Max function values used in fminbound.") else Ok (mk2 1 1 (fun _ _ => y), fval)
    end.

  (** minres.x, minres.fun; minres = [] has no such attributes *)
  Definition unpack (o : option mres) : res (xsol * R) :=
    match o with Some r => Ok (mr_x r, mr_fun r) | None => Err AttributeError end.

  (** optimizers.py 295-346, zonotope_minimize; the message is abbreviated.
      Iterating over constraints=None raises TypeError, in the first run. *)
  Definition zonotope_minimize (avfun : nd R -> res R) (d : avdomain) (avdfun : option (nd R -> res (nd R))) : M W (xsol * R) :=
    dom W1 <- mlift (need (s_W1 (d_subs d)));
    dom (_, n) <- mlift (shape2 W1);
    dom curr_state <- get_state;
    dom _ <- seed 42;
    dom minres <- multistart 10
      (dom y0 <- normal2 1 n;
       mlift (match d_cons d with
              | None => Err TypeError
              | Some cs => sp_minimize B (MP avfun y0 "SLSQP" avdfun [] (Some cs))
              end))
      "SLSQP failed with message" (10 ^ 100) None;
    dom _ <- set_state curr_state;
    mlift (unpack minres).

  (** optimizers.py 348-399, unbounded_minimize *)
  Definition unbounded_minimize (avfun : nd R -> res R) (d : avdomain) (avdfun : option (nd R -> res (nd R))) : M W (xsol * R) :=
    dom W1 <- mlift (need (s_W1 (d_subs d)));
    dom (_, n) <- mlift (shape2 W1);
    let method := match avdfun with None => "SLSQP"%string | Some _ => "BFGS"%string end in
    dom curr_state <- get_state;
    dom _ <- seed 42;
    dom minres <- multistart 10
      (dom y0 <- normal2 1 n; mlift (sp_minimize B (MP avfun y0 method avdfun [] None)))
      (method ++ " failed with message")%string (10 ^ 100) None;
    dom _ <- set_state curr_state;
    mlift (unpack minres).

  (** ystar.reshape((1, ystar.size)), line 258; a plain float has no reshape *)
  Definition row_of (x : xsol) : res (nd R) :=
    match x with XArr x => reshape [1%nat; size x] x | XFloat _ => Err AttributeError end.
  (** optimizers.py 221-258, av_minimize *)
  Definition av_minimize (avfun : nd R -> res R) (d : avdomain) (avdfun : option (nd R -> res (nd R))) : M W (nd R * R) :=
    dom (x, fstar) <-
      match d_kind d with
      | DUnbounded => unbounded_minimize avfun d avdfun
      | DBounded =>
          dom W1 <- mlift (need (s_W1 (d_subs d)));
          dom (_, n) <- mlift (shape2 W1);
          if Nat.eqb n 1 then dom (y, fv) <- mlift (interval_minimize avfun d); mret (XArr y, fv)
          else zonotope_minimize avfun d avdfun
      | DBase => merr (Exc "There is a problem with the avdom.")
      end;
    dom ystar <- mlift (row_of x);
    mret (ystar, fstar).

  (** optimizers.py 202-204 and 205-207, the wrappers *)
  Definition avfun_of (s : asrs) (y : nd R) : res R :=
    do Y <- reshape [1%nat; size y] y;
    do (f, _) <- predict_av s Y false;
    get2 f 0 0.
  Definition avdfun_of (s : asrs) (y : nd R) : res (nd R) :=
    do Y <- reshape [1%nat; size y] y;
    do df <- gradient_av s Y;
    do df <- need df;
    reshape [size y] df.

  (** optimizers.py 167-219, minimize *)
  Definition opt_minimize (s : asrs) (X f : nd R) : M W (nd R * R) :=
    dom (X, f, _, _) <- mlift (process_inputs_outputs X f);
    let d := av_domain (as_map s) in
    dom regz <-
      match d_kind d with
      | DUnbounded => mret (umvm_regularize d)
      | DBounded => mret (bmvm_regularize d)
      | DBase => merr (Exc "There is a problem with the avmap.domain.")
      end;
    dom (ystar, fstar) <- av_minimize (avfun_of s) d (Some (avdfun_of s));
    dom v <- mlift (mvm_train d X f);
    dom (xstar, _) <- av_inverse_with d (regz v) ystar (IsA 1%Z);
    mret (xstar, fstar).
End Optimizers.
