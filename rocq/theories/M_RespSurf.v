(** Model of active_subspaces/utils/response_surfaces.py *)
From Coq Require Import Reals Lra Lia List Arith ZArith String Bool.
From Verif Require Import Prelude Py NumArr M_Misc.
Import ListNotations.
Open Scope R_scope.

(** scipy.misc.comb(n, k) for naturals *)
Fixpoint binom (n k : nat) : nat :=
  match n, k with
  | _, O => 1
  | O, S _ => 0
  | S n', S k' => binom n' k' + binom n' k
  end%nat.

(** utils/response_surfaces.py 514-529, _full_index_set(n, d) with d = S d'.
    Multi-indices are naturals (the code stores them as floats). *)
Fixpoint full_index_set (n d' : nat) : list (list nat) :=
  match d' with
  | O => [[n]]
  | S d'' => List.concat (map (fun i => map (cons i) (full_index_set (n - i) d'')) (seq 0 (n + 1)))
  end.

(** utils/response_surfaces.py 531-551, index_set(n, d).  For d = 0 and n >= 1
    the helper recurses without end (RuntimeError in Python). *)
Definition index_set (n d : nat) : res (list (list nat)) :=
  match d with
  | O => match n with O => Ok [[]] | S _ => Err (Exc "maximum recursion depth exceeded") end
  | S d' => Ok (map (@rev nat)
      (repeat 0%nat d :: List.concat (map (fun i => full_index_set i d') (seq 1 n))))
  end.

(** np.prod over j < m *)
Fixpoint prodf (n : nat) (f : nat -> R) : R :=
  match n with O => 1 | S n' => prodf n' f * f n' end.

(** np.prod(np.power(X, ind), axis=1) at row r *)
Definition power_prod (X : nd R) (m : nat) (ind : list nat) (r : nat) : R :=
  prodf m (fun j => X.[r, j] ^ nth j ind 0%nat).

(** utils/response_surfaces.py 453-478, polynomial_bases *)
Definition polynomial_bases (X : nd R) (N : nat) : res (nd R * list (list nat)) :=
  do (M, m) <- shape2 X;
  do II <- index_set N m;
  Ok (mk2 M (List.length II) (fun r i => power_prod X m (nth i II []) r), II).

(** ind[k] -= 1 *)
Fixpoint dec_at (k : nat) (l : list nat) : list nat :=
  match l, k with
  | [], _ => []
  | a :: t, O => (a - 1)%nat :: t
  | a :: t, S k' => a :: dec_at k' t
  end.

(** utils/response_surfaces.py 480-512, grad_polynomial_bases *)
Definition grad_polynomial_bases (X : nd R) (N : nat) : res (nd R) :=
  do (M, m) <- shape2 X;
  do II <- index_set N m;
  Ok (mk3 M (List.length II) m (fun r i k =>
        let ind := nth i II [] in
        let indk := nth k ind 0%nat in
        if Nat.eqb indk 0 then 0
        else INR indk * power_prod X m (dec_at k ind) r)).

(** np.sum, np.var of an M-by-1 array *)
Definition sum_col (f : nd R) (M : nat) : R := sumf M (fun i => f.[i, 0%nat]).
Definition var_col (f : nd R) (M : nat) : R :=
  let mu := sum_col f M / INR M in
  sumf M (fun i => (f.[i, 0%nat] - mu) * (f.[i, 0%nat] - mu)) / INR M.

(** attributes of a trained PolynomialApproximation *)
Record poly := { pa_N : nat; pa_X : nd R; pa_f : nd R; pa_weights : nd R; pa_Rsqr : xr;
                 pa_g : nd R; pa_H : option (nd R) }.

(** np.nonzero(ind != 0)[0] *)
Definition nonzero_locs (ind : list nat) : list nat :=
  filter (fun j => negb (Nat.eqb (nth j ind 0%nat) 0)) (seq 0 (List.length ind)).

Definition upd2 (H : nat -> nat -> R) (a b : nat) (v : R) : nat -> nat -> R :=
  fun i j => if (Nat.eqb i a && Nat.eqb j b)%bool then v else H i j.

(** lines 117-126: one pass of the loop filling H *)
Definition H_step (II : list (list nat)) (pw : nd R) (H : nat -> nat -> R) (i : nat) : res (nat -> nat -> R) :=
  if Nat.leb (List.length II) i then Err IndexError else
  match nonzero_locs (nth i II []) with
  | [a] => Ok (upd2 H a a (2 * pw.[i, 0%nat]))
  | [a; b] => Ok (upd2 (upd2 H a b (pw.[i, 0%nat])) b a (pw.[i, 0%nat]))
  | _ => Err (Exc "Error creating quadratic coefficients.")
  end.
Fixpoint H_loop (II : list (list nat)) (pw : nd R) (H : nat -> nat -> R) (l : list nat) : res (nat -> nat -> R) :=
  match l with
  | [] => Ok H
  | i :: t => do H' <- H_step II pw H i; H_loop II pw H' t
  end.

Section Poly.
  (** np.linalg.lstsq(A, b)[0] *)
  Variable lstsq : nd R -> nd R -> res (nd R).

  (** utils/response_surfaces.py 74-127, PolynomialApproximation.train *)
  Definition poly_train (N : nat) (X f : nd R) (weights : option (nd R)) : res poly :=
    do (X, f, M, m) <- process_inputs_outputs X f;
    if Nat.ltb M (binom (N + m) m) then Err (Exc "Not enough points to fit response surface") else
    do (B, II) <- polynomial_bases X N;
    let p := ncols B in
    do (B, f) <- match weights with
      | None => Ok (B, f)
      | Some w => do B' <- bcast2 Rmult w B; do f' <- bcast2 Rmult w f; Ok (B', f')
      end;
    do pw <- lstsq B f;
    do r <- mdot B pw;
    do d <- bcast2 Rminus r f;
    let Rsqr := xsub (Fin 1) (xdiv (Fin (sumf (nrows d) (fun i => d.[i, 0%nat] * d.[i, 0%nat])))
                                   (Fin (INR M * var_col f (nrows f)))) in
    do pw' <- reshape [p; 1%nat] pw;
    do g <- reshape [m; 1%nat] (rows_slice pw 1 (m + 1));
    do H <- (if Nat.ltb 1 N
             then do h <- H_loop II pw (fun _ _ => 0) (seq (m + 1) (binom (m + 1) 2)); Ok (Some (mk2 m m h))
             else Ok None);
    Ok {| pa_N := N; pa_X := X; pa_f := f; pa_weights := pw'; pa_Rsqr := Rsqr; pa_g := g; pa_H := H |}.

  (** utils/response_surfaces.py 129-164, PolynomialApproximation.predict *)
  Definition poly_predict (s : poly) (X : nd R) (compgrad : bool) : res (nd R * option (nd R)) :=
    do (X, M, m) <- process_inputs X;
    do (B, II) <- polynomial_bases X (pa_N s);
    do f0 <- mdot B (pa_weights s);
    do f <- reshape [M; 1%nat] f0;
    if compgrad then
      do dB <- grad_polynomial_bases X (pa_N s);
      (* df[:,i] = dot(dB[:,:,i], poly_weights) *)
      if negb (Nat.eqb (nrows (pa_weights s)) (ncols dB)) then Err ValueError else
      Ok (f, Some (mk2 M m (fun r i => sumf (ncols dB) (fun c => dB.[r, c, i] * (pa_weights s).[c, 0%nat]))))
    else Ok (f, None).
End Poly.

(** utils/response_surfaces.py 390-418, exponential_squared.  [ell] is an
    m-by-1 array; [-1.0 / ell] is exact division (entries assumed nonzero in
    the theorems).  [X1 - x2] stretches a single column; without rows in X2 the
    loop makes no checks. *)
Definition exponential_squared (X1 X2 : nd R) (sigma : R) (ell : nd R) : res (nd R) :=
  do (m, d1) <- shape2 X1;
  do (n, d2) <- shape2 X2;
  match bdim d1 d2 with
  | Some d =>
      if (negb (Nat.eqb n 0) && negb (Nat.eqb d (size ell)))%bool then Err ValueError else
      let B a i k := X1.[a, bidx d1 k] - X2.[i, bidx d2 k] in
      Ok (mk2 m n (fun a i => sigma * exp (sumf d (fun k => B a i k * B a i k * (-1 / ell.[k, 0%nat])))))
  | None => if Nat.eqb n 0 then Ok (zeros2 m n) else Err ValueError
  end.

(** utils/response_surfaces.py 420-451, grad_exponential_squared *)
Definition grad_exponential_squared (X1 X2 : nd R) (sigma : R) (ell : nd R) : res (nd R) :=
  do (m, d1) <- shape2 X1;
  do (n, d2) <- shape2 X2;
  let looping := negb (Nat.eqb n 0 || Nat.eqb d1 0)%bool in
  match bdim d1 d2 with
  | Some d =>
      if (looping && Nat.eqb (size ell) 0)%bool then Err IndexError else               (* c[k] *)
      if (looping && negb (Nat.eqb d (size ell)))%bool then Err ValueError else
      let B a i k := X1.[a, bidx d1 k] - X2.[i, bidx d2 k] in
      Ok (mk3 m n d1 (fun a i k =>
        sigma * (-2 * (-1 / ell.[k, 0%nat]) * B a i k)
          * exp (sumf d (fun l => B a i l * B a i l * (-1 / ell.[l, 0%nat])))))
  | None => if looping then Err ValueError else Ok (mk3 m n d1 (fun _ _ _ => 0))
  end.

(** attributes of a trained RadialBasisApproximation *)
Record rbf := { rb_N : nat; rb_X : nd R; rb_f : nd R; rb_K : nd R; rb_ell : nd R; rb_Rsqr : xr;
                rb_rw : nd R; rb_pw : nd R }.

Section RBF.
  Variable solve : nd R -> nd R -> res (nd R).
  Variable cholesky : nd R -> res (nd R).
  (** scipy.optimize.fminbound(func, -10, 1); [Err] when the objective raised *)
  Variable fminbound : (R -> res R) -> res R.

  (** lines 245-252 (and 360-367): length scales and noise *)
  Definition rbf_scales (g : R) (f : nd R) (m : nat) (v e : option (nd R)) : nd R * nd R :=
    match e with
    | None => (mk2 m 1 (fun _ _ => g),
               match v with None => amap (fun _ => / 10 ^ 6) f | Some v => v end)
    | Some e => (mk2 (Nat.min m (nrows e)) 1 (fun i _ => g * sumf (nrows e) (fun k => e.[k, 0%nat]) / e.[i, 0%nat]),
                 match v with
                 | None => amap (fun _ => g * sumf (nrows e - m) (fun k => e.[(m + k)%nat, 0%nat])) f
                 | Some v => v end)
    end.

  (** K + diag(v.reshape((M,))) *)
  Definition add_diag (K v : nd R) (M : nat) : res (nd R) :=
    do v1 <- reshape [M] v;
    Ok (mk2 M M (fun i j => K.[i, j] + kron_delta i j * v1.[i])).

  (** utils/response_surfaces.py 330-388, _rbf_objective *)
  Definition rbf_objective (X f : nd R) (v : option (nd R)) (N : nat) (e : option (nd R)) (log10g : R) : res R :=
    let g := Rpower 10 log10g in
    do (M, m) <- shape2 X;
    let '(ell, v) := rbf_scales g f m v e in
    do K0 <- exponential_squared X X 1 ell;
    do K <- add_diag K0 v M;
    do L <- cholesky K;
    do (B, II) <- polynomial_bases X N;
    do KB <- solve K B; do A <- mdot (tr B) KB;
    do Kf <- solve K f; do z <- mdot (tr B) Kf;
    do beta <- solve A z;
    do Bb <- mdot B beta; do r <- bcast2 Rminus f Bb;
    do Kr <- solve K r; do q <- mdot (tr r) Kr;
    let sig2 := Rmax (q.[0%nat, 0%nat] / INR M) (5 * / 2 ^ 52) in
    Ok (sumf M (fun i => ln (L.[i, i])) + INR M * ln sig2).

  (** utils/response_surfaces.py 199-275, RadialBasisApproximation.train *)
  Definition rbf_train (N : nat) (X f : nd R) (v e : option (nd R)) : res rbf :=
    do (X, f, M, m) <- process_inputs_outputs X f;
    if Nat.ltb M (binom (N + m) m) then Err (Exc "Not enough points to fit response surface") else
    do log10g <- fminbound (rbf_objective X f v N e);
    let g := Rpower 10 log10g in
    let '(ell, v) := rbf_scales g f m v e in
    do v0 <- reshape (shape f) v;
    let v := amap (fun a => Rmax a (/ 10 ^ 6)) v0 in
    do K0 <- exponential_squared X X 1 ell;
    do K <- add_diag K0 v M;
    do (B, II) <- polynomial_bases X N;
    let p := ncols B in
    do C1 <- vstack K (tr B); do C2 <- vstack B (zeros2 p p); do C <- hstack C1 C2;
    do rhs <- vstack f (zeros2 p 1);
    do w <- solve C rhs;
    let rw := rows_slice w 0 M in let pw := rows_slice w M (nrows w) in
    do Bp <- mdot B pw; do r <- bcast2 Rminus f Bp;
    do Kr <- solve K r; do q1 <- mdot (tr r) Kr;
    do Kf <- solve K f; do q2 <- mdot (tr f) Kf;
    let Rsqr := xsub (Fin 1) (xdiv (Fin (q1.[0%nat, 0%nat])) (Fin (q2.[0%nat, 0%nat]))) in
    Ok {| rb_N := N; rb_X := X; rb_f := f; rb_K := K; rb_ell := ell; rb_Rsqr := Rsqr; rb_rw := rw; rb_pw := pw |}.

  (** utils/response_surfaces.py 277-328, RadialBasisApproximation.predict *)
  Definition rbf_predict (s : rbf) (X : nd R) (compgrad : bool) : res (nd R * option (nd R)) :=
    do (X, M, m) <- process_inputs X;
    do K <- exponential_squared X (rb_X s) 1 (rb_ell s);
    do (B, II) <- polynomial_bases X (rb_N s);
    do f1 <- mdot K (rb_rw s); do f2 <- mdot B (rb_pw s);
    do f0 <- bcast2 Rplus f1 f2;
    do f <- reshape [M; 1%nat] f0;
    if compgrad then
      do dK <- grad_exponential_squared (rb_X s) X 1 (rb_ell s);
      do dB <- grad_polynomial_bases X (rb_N s);
      (* df[:,i] = dot(dK[:,:,i].T, radial_weights) + dot(dB[:,:,i], poly_weights) *)
      Ok (f, Some (mk2 M m (fun r i =>
          sumf (nrows dK) (fun a => dK.[a, r, i] * (rb_rw s).[a, 0%nat])
          + sumf (ncols dB) (fun c => dB.[r, c, i] * (rb_pw s).[c, 0%nat]))))
    else Ok (f, None).
End RBF.
