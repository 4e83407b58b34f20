(** Model of active_subspaces/utils/quadrature.py *)
From Coq Require Import String Reals Lra Lia List Arith ZArith Bool.
From Verif Require Import Prelude Py NumArr M_Misc M_RespSurf.
Import ListNotations.
Open Scope R_scope.

(** utils/quadrature.py 9-46, r_hermite *)
Definition r_hermite (N : pyarg Z) : res (nd R) :=
  match N with
  | NotA => Err TypeError
  | IsA N =>
      if Z.leb N 0 then Err ValueError else
      if Z.eqb N 1 then Ok (mk2 1 2 (fun _ j => match j with O => 0 | _ => 1 end)) else
      let N := Z.to_nat N in
      do n1 <- reshape [N; 1%nat] (mk1 N (fun i => INR (i + 1)));       (* range(1, N+1) *)
      do b <- vstack (ones2 1 1) n1;
      hstack (zeros2 (nrows b) (ncols b)) b
  end.

(** utils/quadrature.py 48-101, r_jacobi.  Division by zero (a + b in
    {-2, -3, ...}) is not modelled; the only caller passes a = b = 0. *)
Definition r_jacobi (N : pyarg Z) (l r a b : R) : res (nd R) :=
  match N with
  | NotA => Err TypeError
  | IsA N =>
      if Z.leb N 0 then Err ValueError else
      let N := Z.to_nat N in
      let a0 := (b - a) / (a + b + 2) in
      let b2a2 := b * b - a * a in
      let s := (r - l) / 2 in let o := l + (r - l) / 2 in
      Ok (mk2 (N + 1) 2 (fun k c =>
        match k, c with
        | O, O => s * a0 + o
        | O, _ => 1
        | _, O => s * b2a2 / ((2 * INR k + a + b) * (2 * INR (k + 1) + a + b)) + o
        | S O, _ => ((r - l) * (r - l) * INR k * (INR k + a) * (INR k + b))
                    / ((2 * INR k + a + b) * (2 * INR k + a + b) * (2 * INR k + a + b + 1))
        | _, _ => ((r - l) * (r - l) * INR k * (INR k + a) * (INR k + b) * (INR k + a + b))
                  / ((2 * INR k + a + b) * (2 * INR k + a + b) * (2 * INR k + a + b + 1) * (2 * INR k + a + b - 1))
        end))
  end.

(** utils/quadrature.py 103-147, jacobi_matrix.  The result is a float (0-d
    array) when ab has one row.  Storing J[0,1] in a 1-by-1 array raises
    IndexError; np.zeros((-1,-1)) raises ValueError.  np.sqrt of a negative
    number (NaN) is not modelled. *)
Definition jac_step (ab : nd R) (J : nat -> nat -> R) (i : nat) : nat -> nat -> R :=
  upd2 (upd2 (upd2 J i i (ab.[i, 0%nat])) i (i - 1) (sqrt (ab.[i, 1%nat]))) i (i + 1) (sqrt (ab.[(i + 1)%nat, 1%nat])).
Definition jacobi_matrix (ab : nd R) : res (nd R) :=
  match shape ab with
  | [r; c] =>
      if negb (Nat.eqb c 2) then Err ValueError else
      match r with
      | O => Err ValueError
      | S O => Ok (ND [] (fun _ => ab.[0%nat, 0%nat]))
      | S (S O) => Err IndexError
      | S n =>
          let J0 := upd2 (upd2 (fun _ _ => 0) 0 0 (ab.[0%nat, 0%nat])) 0 1 (sqrt (ab.[1%nat, 1%nat])) in
          let J1 := fold_left (jac_step ab) (seq 1 (n - 2)) J0 in
          Ok (mk2 n n (upd2 (upd2 J1 (n - 1) (n - 1) (ab.[(n - 1)%nat, 0%nat]))
                            (n - 1) (n - 2) (sqrt (ab.[(n - 1)%nat, 1%nat]))))
      end
  | _ => Err ValueError
  end.

(** x[np.fabs(x) < 1e-12] = 0.0 *)
Definition snap (x : R) : R := if Rlt_dec (Rabs x) (/ 10 ^ 12) then 0 else x.

Section Quad.
  (** np.linalg.eig (on matrices with real eigenvalues), np.argsort *)
  Variable eig : nd R -> res (nd R * nd R).
  Variable argsort : list R -> list nat.

  (** utils/quadrature.py 203-246, g1d, for an int N *)
  Definition g1d (N : Z) (quadtype : string) : res (nd R * nd R) :=
    if Z.ltb 1 N then
      do ab <- (if String.eqb quadtype "Hermite" then r_hermite (IsA N)
                else if String.eqb quadtype "Legendre" then r_jacobi (IsA N) (-1) 1 0 0
                else Err ValueError);
      do J <- jacobi_matrix ab;
      do (e, V) <- eig J;
      let ind := argsort (map (fun i => e.[i]) (seq 0 (nrows e))) in
      let k := List.length ind in
      do x <- reshape [Z.to_nat N; 1%nat] (mk1 k (fun i => e.[nth i ind 0%nat]));
      do w <- reshape [Z.to_nat N; 1%nat] (mk1 k (fun i => V.[0%nat, nth i ind 0%nat] * V.[0%nat, nth i ind 0%nat]));
      Ok (amap snap x, w)
    else Ok (mk2 1 1 (fun _ _ => 0), mk2 1 1 (fun _ _ => 1)).

  (** utils/quadrature.py 149-174 and 176-201 *)
  Definition gl1d (N : Z) := g1d N "Legendre".
  Definition gh1d (N : Z) := g1d N "Hermite".

  (** one pass of the loop in lines 276-285 and 319-328 *)
  Definition tensor_step (rule : Z -> res (nd R * nd R)) (xw : res (nd R * nd R)) (n : Z) : res (nd R * nd R) :=
    do (x, w) <- xw;
    do (xi, wi) <- rule n;
    let xL := kron x (ones2 (nrows xi) (ncols xi)) in
    let xU := kron (ones2 (nrows x) 1) xi in
    do x' <- hstack xL xU;
    Ok (x', kron w wi).

  (** utils/quadrature.py 248-289 and 291-332: the argument is an int, a list
      of ints, or something else (TypeError).  np.atleast_2d and
      mi.atleast_2d_col leave 2-d arrays alone. *)
  Inductive nodes_arg := NInt (n : Z) | NList (l : list Z) | NOther.
  Definition tensor_rule (rule : Z -> res (nd R * nd R)) (N : nodes_arg) : res (nd R * nd R) :=
    do l <- match N with NInt n => Ok [n] | NList l => Ok l | NOther => Err TypeError end;
    match l with
    | [n] => rule n
    | _ => do (x, w) <- fold_left (tensor_step rule) l (Ok (ones2 1 1, ones2 1 1));
           Ok (cols_slice x 1 (ncols x), w)
    end.
  Definition gauss_hermite (N : nodes_arg) := tensor_rule gh1d N.
  Definition gauss_legendre (N : nodes_arg) := tensor_rule gl1d N.
End Quad.
