(** Model of active_subspaces/subspaces.py *)
From Coq Require Import String Reals Lra Lia List Arith ZArith Bool.
From Verif Require Import Prelude Py NumArr M_Misc M_RespSurf M_Gradients.
Import ListNotations.
Open Scope R_scope.

(** ** np.argmin on floats that may be inf or NaN *)

(** [a] comes strictly before [b] for np.argmin: NaN is treated as smallest *)
Definition xbefore (a b : xr) : bool :=
  match a, b with
  | NaN, NaN => false
  | NaN, _ => true
  | _, NaN => false
  | NInf, NInf => false
  | NInf, _ => true
  | _, NInf => false
  | Fin x, Fin y => if Rlt_dec x y then true else false
  | Fin _, PInf => true
  | PInf, _ => false
  end.
(** index of the first smallest entry among positions 0..n *)
Fixpoint xargmin_upto (n : nat) (f : nat -> xr) : nat :=
  match n with
  | O => O
  | S n' => let k := xargmin_upto n' f in if xbefore (f n) (f k) then n else k
  end.
(** np.argmin(X) with axis=None: row-major index; ValueError when X is empty *)
Definition np_argmin (X : nd xr) : res nat :=
  match size X with
  | O => Err ValueError
  | S n => Ok (xargmin_upto n (fun k => at_ X (unravel (shape X) k)))
  end.
(** np.argmax of n finite floats *)
Definition np_argmax (n : nat) (f : nat -> R) : res nat :=
  match n with O => Err ValueError | S n' => Ok (argmax_upto n' f) end.
(** np.sqrt *)
Definition xsqrt (x : R) : xr := if Rlt_dec x 0 then NaN else Fin (sqrt x).

(** X[ind, :]: IndexError unless X is 2-d and every index is in range *)
Definition fancy_rows (X : nd R) (ind : list nat) : res (nd R) :=
  match shape X with [_; _] => take_rows X ind | _ => Err IndexError end.

(** x0 = None if x is None else x[ind,:] *)
Definition opt_rows (X : option (nd R)) (ind : list nat) : res (option (nd R)) :=
  match X with None => Ok None | Some X => do Y <- fancy_rows X ind; Ok (Some Y) end.

(** subspaces.py 328-348, eig_partition.  [e] is a vector or a column; the gaps
    are returned as an array. *)
Definition eig_partition (e : nd R) : res (Z * nd R) :=
  do v <- reshape [size e] e;
  let ediff := mk1 (size e - 1) (fun i => Rabs (v.[S i] - v.[i])) in
  do k <- np_argmax (size e - 1) (fun i => ediff.[i]);
  Ok (Z.of_nat k + 1, ediff)%Z.

(** subspaces.py 350-384, errbnd_partition.  [e] is m-by-1; range(m-1) reads
    [sub_err[i]], which must be one number.  np.zeros((-1,1)) raises when m = 0. *)
Definition errbnd_partition (e sub_err : nd R) : res (Z * nd xr) :=
  let m := nrows e in
  match m with
  | O => Err ValueError
  | S m1 =>
      if (Nat.ltb 0 m1 && Nat.eqb (nrows sub_err) 0)%bool then Err IndexError else
      if (Nat.ltb 0 m1 && negb (Nat.eqb (ncols sub_err) 1))%bool then Err ValueError else
      if Nat.ltb (nrows sub_err) m1 then Err IndexError else
      let errbnd := mk2 m1 1 (fun i _ =>
        xadd (xmul (xsqrt (sumf (i + 1) (fun k => e.[k, 0%nat]))) (Fin (sub_err.[i, 0%nat])))
             (xsqrt (sumf (m - (i + 1)) (fun k => e.[(i + 1 + k)%nat, 0%nat])))) in
      do k <- np_argmin errbnd;
      Ok (Z.of_nat k + 1, errbnd)%Z
  end.

(** subspaces.py 386-409, ladle_partition.  Division by a zero sum gives
    inf/NaN entries. *)
Definition ladle_partition (e : nd R) (li_F : nd xr) : res (Z * nd xr) :=
  do v <- reshape [size e; 1%nat] e;
  let total := sumf (size e) (fun k => v.[k, 0%nat]) in
  do Gm <- bcast2 xadd li_F (amap (fun x => xdiv (Fin x) (Fin total)) v);
  do k <- np_argmin Gm;
  Ok (Z.of_nat k + 1, Gm)%Z.

(** np.sign *)
Definition np_sign (x : R) : R := if Rlt_dec 0 x then 1 else if Rlt_dec x 0 then -1 else 0.

Section Subspaces.
  Context {G : gen} {U : Type}.
  Notation W := (world G U (nd R)).

  (** external routines: np.linalg.eigh, np.argsort, np.linalg.lstsq(...)[0],
      np.linalg.norm(., ord=2), np.linalg.det *)
  Variable eigh : nd R -> res (nd R * nd R).
  Variable argsort : list R -> list nat.
  Variable lstsq : nd R -> nd R -> res (nd R).
  Variable norm2 : nd R -> R.
  Variable det : nd R -> R.

  (** subspaces.py 486-515, sorted_eigh *)
  Definition sorted_eigh (C : nd R) : res (nd R * nd R) :=
    do (e0, W0) <- eigh C;
    let e1 := map (fun i => Rabs (e0.[i])) (seq 0 (nrows e0)) in        (* abs(e) *)
    let ind := rev (argsort e1) in                                      (* ind[::-1] *)
    let n := List.length ind in
    let W1 := mk2 (nrows W0) n (fun i j => W0.[i, nth j ind 0%nat]) in
    if Nat.eqb (nrows W0) 0 then Err IndexError else                    (* W[0,:] *)
    let s j := let v := np_sign (W1.[0%nat, j]) in
               if Req_EM_T v 0 then 1 else v in
    Ok (mk2 n 1 (fun j _ => nth (nth j ind 0%nat) e1 0),
        mk2 (nrows W0) n (fun i j => W1.[i, j] * s j)).

  (** subspaces.py 182-205, active_subspace *)
  Definition active_subspace (df weights : nd R) : res (nd R * nd R) :=
    do (df, M, m) <- process_inputs df;
    do dw <- bcast2 Rmult df weights;
    do C <- mdot (tr df) dw;
    sorted_eigh C.

  (** subspaces.py 207-245, ols_subspace.  np.sqrt of a negative weight (NaN)
      is not modelled; the theorems assume weights >= 0. *)
  Definition ols_subspace (X f weights : nd R) : res (nd R * nd R) :=
    do (X, f, M, m) <- process_inputs_outputs X f;
    do A0 <- hstack (ones2 M 1) X;
    do A <- bcast2 Rmult A0 (amap sqrt weights);
    do b <- bcast2 Rmult f (amap sqrt weights);
    do u <- lstsq A b;
    do w <- reshape [m; 1%nat] (rows_slice u 1 (nrows u));
    do C <- mdot w (tr w);
    sorted_eigh C.

  (** np.amax(X) > 1.0; ValueError when X is empty *)
  Definition amax_gt1 (X : nd R) (M m : nat) : res bool :=
    match (M * m)%nat with
    | O => Err ValueError
    | S k => Ok (if Rlt_dec 1 (max_upto k (fun i => X.[(i / m)%nat, (i mod m)%nat])) then true else false)
    end.

  (** subspaces.py 247-291, qphd_subspace.  Line 273 tests
      [np.amax(X) > 1.0 or np.amin < -1.0]; the second test compares the
      function object np.amin with a number, which is always False. *)
  Definition qphd_subspace (X f weights : nd R) : res (nd R * nd R) :=
    do (X, f, M, m) <- process_inputs_outputs X f;
    do big <- amax_gt1 X M m;
    let gamma := if big then 1 else 1 / 3 in
    do pr <- poly_train lstsq 2 X f (Some weights);
    match pa_H pr with
    | None => Err AttributeError
    | Some A =>
        let b := pa_g pr in
        do AA <- mdot A (tr A);
        do C <- bcast2 Rplus (mk2 (size b) (size b) (fun i j => b.[i, 0%nat] * b.[j, 0%nat]))
                             (amap (Rmult gamma) AA);
        sorted_eigh C
    end.

  (** subspaces.py 293-326, opg_subspace (draws random numbers) *)
  Definition opg_subspace (X f weights : nd R) : M W (nd R * nd R) :=
    dom (X, f, M, m) <- mlift (process_inputs_outputs X f);
    dom df <- local_linear_gradients argsort lstsq X f None (Some weights);
    let opg_weights := mk2 (nrows df) 1 (fun _ _ => / INR (nrows df)) in
    mlift (active_subspace df opg_weights).

  (** subspaces.py 110-136: the presence checks and the chosen method *)
  Definition ssmethod (sstype : string) (X f df : option (nd R)) (weights : nd R) : M W (nd R * nd R) :=
    let need (k : nd R -> nd R -> M W (nd R * nd R)) :=
      match X, f with
      | Some X, Some f => k X f
      | _, _ => merr (Exc "X or f is None")
      end in
    if String.eqb sstype "AS" then
      match df with
      | None => merr (Exc "df is None")
      | Some df => mlift (active_subspace df weights)
      end
    else if String.eqb sstype "OLS" then need (fun X f => mlift (ols_subspace X f weights))
    else if String.eqb sstype "QPHD" then need (fun X f => mlift (qphd_subspace X f weights))
    else if String.eqb sstype "OPG" then need (fun X f => opg_subspace X f weights)
    else merr (Exc "Unrecognized subspace type").

  (** subspaces.py 517-544, _bootstrap_replicate *)
  Definition bootstrap_replicate (X f df : option (nd R)) (weights : nd R)
    : M W (option (nd R) * option (nd R) * option (nd R) * nd R) :=
    match shape weights with
    | [] => merr IndexError                                  (* weights.shape[0] *)
    | O :: _ => merr ValueError                              (* randint(0, ...) *)
    | M :: _ =>
        dom ind <- repeatM M (draw_randint M);
        dom X0 <- mlift (opt_rows X ind);
        dom f0 <- mlift (opt_rows f ind);
        dom df0 <- mlift (opt_rows df ind);
        dom w0 <- mlift (fancy_rows weights ind);
        mret (X0, f0, df0, w0)
    end.

  (** subspaces.py 459-466, one bootstrap replicate: its eigenvalues, subspace
      distances and subspace determinants for j = 0..m-2 *)
  Record replicate := Rep { rp_e : nd R; rp_dist : nd R; rp_det : nd R }.
  (** the product W[:,:j+1].T . W0[:,a:b] *)
  Definition cross (W0 V : nd R) (j a b : nat) : res (nd R) :=
    mdot (tr (cols_slice W0 0 (j + 1))) (cols_slice V a b).
  Definition boot_step (m : nat) (Wm : nd R) (X f df : option (nd R)) (weights : nd R)
             (method : option (nd R) -> option (nd R) -> option (nd R) -> nd R -> M W (nd R * nd R)) : M W replicate :=
    dom (X0, f0, df0, weights0) <- bootstrap_replicate X f df weights;
    dom (e0, W0) <- method X0 f0 df0 weights0;
    dom ev <- mlift (reshape [m] e0);
    dom ds <- mlift (mapr (fun j => cross Wm W0 j (j + 1) (ncols W0)) (seq 0 (m - 1)));
    dom dt <- mlift (mapr (fun j => cross Wm W0 j 0 (j + 1)) (seq 0 (m - 1)));
    mret (Rep ev (mk1 (m - 1) (fun j => norm2 (nth j ds (zeros2 0 0))))
                 (mk1 (m - 1) (fun j => det (nth j dt (zeros2 0 0))))).

  (** subspaces.py 411-484, _bootstrap_ranges.  [nboot] >= 1 here (it is only
      called with nboot > 0).  np.zeros((-1, nboot)) raises when m = 0. *)
  Definition bootstrap_ranges (e Wm : nd R) (X f df : option (nd R)) (weights : nd R)
             (method : option (nd R) -> option (nd R) -> option (nd R) -> nd R -> M W (nd R * nd R)) (nboot : nat)
    : M W (nd R * nd R * nd xr) :=
    dom (X, df, m) <- mlift (match df with
       | Some d => do (d', M, m) <- process_inputs d; Ok (X, Some d', m)
       | None => match X with
                 | Some x => do (x', M, m) <- process_inputs x; Ok (Some x', None, m)
                 | None => Err AttributeError               (* None.shape *)
                 end
       end);
    if Nat.eqb m 0 then merr ValueError else
    dom reps <- mmap (fun _ : nat => boot_step m Wm X f df weights method) (seq 0 nboot);
    let get i := nth i reps (Rep (zeros2 0 0) (zeros2 0 0) (zeros2 0 0)) in
    let e_boot j i := (rp_e (get i)).[j] in
    let sub_dist j i := (rp_dist (get i)).[j] in
    let sub_det j i := (rp_det (get i)).[j] in
    let last := (nboot - 1)%nat in
    let e_br := mk2 m 2 (fun j c => match c with
        | O => min_upto last (e_boot j)
        | _ => max_upto last (e_boot j) end) in
    let sub_br := mk2 (m - 1) 3 (fun j c => match c with
        | O => min_upto last (sub_dist j)
        | S O => sumf nboot (sub_dist j) / INR nboot
        | _ => max_upto last (sub_dist j) end) in
    let li j := match j with
        | O => 0
        | S j' => sumf nboot (fun i => 1 - Rabs (sub_det j' i)) / INR nboot end in
    let li_F := mk2 m 1 (fun j _ => xdiv (Fin (li j)) (Fin (sumf m li))) in
    mret (e_br, sub_br, li_F).

  (** ** The Subspaces object, subspaces.py 10-38 *)
  Record subspaces := Subs {
    s_eigenvals : option (nd R); s_eigenvecs : option (nd R);
    s_W1 : option (nd R); s_W2 : option (nd R);
    s_e_br : option (nd R); s_sub_br : option (nd R)
  }.
  (** the class attributes: a fresh object *)
  Definition subs_new : subspaces := Subs None None None None None None.

  (** programs that also see the object's attributes *)
  Notation St := (W * subspaces)%type.
  Definition liftW {A} (m : M W A) : M St A :=
    fun ws => let (r, w') := m (fst ws) in (r, (w', snd ws)).
  Definition getS : M St subspaces := fun ws => (Ok (snd ws), ws).
  Definition setS (s : subspaces) : M St unit := fun ws => (Ok tt, (fst ws, s)).

  (** subspaces.py 161-180, Subspaces.partition *)
  Definition ss_partition (n : pyarg Z) : M St unit :=
    match n with
    | NotA => merr TypeError
    | IsA n =>
        dom s <- getS;
        match s_eigenvecs s with
        | None => merr AttributeError                       (* None.shape *)
        | Some V =>
            if (Z.ltb n 1 || Z.ltb (Z.of_nat (nrows V)) n)%bool then merr ValueError else
            let k := Z.to_nat n in
            setS (Subs (s_eigenvals s) (s_eigenvecs s)
                       (Some (cols_slice V 0 k)) (Some (cols_slice V k (ncols V)))
                       (s_e_br s) (s_sub_br s))
        end
    end.

  (** subspaces.py 148-158: the dimension chosen by [ptype] *)
  Definition choose_dim (ptype : string) (m : nat) (e : nd R) (br : option (nd R * nd R * nd xr)) : res Z :=
    if String.eqb ptype "EVG" then do (n, _) <- eig_partition e; Ok n
    else if String.eqb ptype "RS" then
      match br with
      | None => Err TypeError
      | Some (_, sub_br, _) =>
          do sub_err <- reshape [(m - 1)%nat; 1%nat] (mk1 (nrows sub_br) (fun i => sub_br.[i, 1%nat]));
          do (n, _) <- errbnd_partition e sub_err; Ok n
      end
    else if String.eqb ptype "LI" then
      match br with
      | None => Err NameError
      | Some (_, _, li_F) => do (n, _) <- ladle_partition e li_F; Ok n
      end
    else Err (Exc "Unrecognized partition type").

  (** subspaces.py 40-158, Subspaces.compute *)
  Definition ss_compute (X f df weights : option (nd R)) (sstype ptype : string) (nboot : Z) : M St unit :=
    dom (X, df, M, m) <- mlift (match X, df with
       | Some x, _ => do (x', M, m) <- process_inputs x; Ok (Some x', df, M, m)
       | None, Some d => do (d', M, m) <- process_inputs d; Ok (None, Some d', M, m)
       | None, None => Err (Exc "One of input/output pairs (X,f) or gradients (df) must not be None")
       end);
    let weights := match weights with None => mk2 M 1 (fun _ _ => / INR M) | Some w => w end in
    dom (e, V) <- liftW (ssmethod sstype X f df weights);
    dom s <- getS;
    dom _ <- setS (Subs (Some e) (Some V) (s_W1 s) (s_W2 s) (s_e_br s) (s_sub_br s));
    dom br <- (if Z.ltb 0 nboot
               then dom r <- liftW (bootstrap_ranges e V X f df weights (ssmethod sstype) (Z.to_nat nboot)); mret (Some r)
               else if (String.eqb ptype "RS" || String.eqb ptype "LI")%bool
                    then merr (Exc "Need to run bootstrap for partition type") else mret None);
    dom s <- getS;
    dom _ <- setS (Subs (s_eigenvals s) (s_eigenvecs s) (s_W1 s) (s_W2 s)
                        (match br with Some (a, _, _) => Some a | None => None end)
                        (match br with Some (_, b, _) => Some b | None => None end));
    dom n <- mlift (choose_dim ptype m e br);
    ss_partition (IsA n).
End Subspaces.
