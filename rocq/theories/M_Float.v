(** Floating point.  The other model files compute with real numbers; this one
    computes the same lines of utils/misc.py and domains.py the way the machine
    does, rounding after every operation.  Numbers of a format with [f_prec]
    binary digits are integers times powers of two; [rnd] rounds to nearest,
    ties to even, with gradual underflow; [fl] adds overflow to infinity.
    Signed zeros are not distinguished. *)
From Coq Require Import Reals ZArith List Lia Bool.
From Verif Require Import Prelude Py NumArr M_Misc M_Subspaces.
Import ListNotations.
Open Scope R_scope.

Record format := { f_prec : Z; f_emin : Z; f_emax : Z }.
(** IEEE 754 binary64 and binary32; numpy's default float is the first *)
Definition binary64 : format := {| f_prec := 53; f_emin := -1074; f_emax := 1024 |}.
Definition binary32 : format := {| f_prec := 24; f_emin := -149; f_emax := 128 |}.

Definition bpow (e : Z) : R := powerRZ 2 e.

(** nearest integer, ties to even *)
Definition near (x : R) : Z :=
  let n := Int_part x in
  let d := x - IZR n in
  if Rlt_dec d (/ 2) then n
  else if Rlt_dec (/ 2) d then (n + 1)%Z
  else if Z.even n then n else (n + 1)%Z.

(** the exponent of the leading binary digit, and of the last one kept *)
Definition mag (x : R) : Z := Int_part (ln (Rabs x) / ln 2).
Definition cexp (F : format) (x : R) : Z := Z.max (mag x - f_prec F + 1) (f_emin F).

Definition rnd (F : format) (x : R) : R := IZR (near (x / bpow (cexp F x))) * bpow (cexp F x).

Definition fl (F : format) (a : xr) : xr :=
  match a with
  | Fin x => if Rlt_dec (Rabs (rnd F x)) (bpow (f_emax F)) then Fin (rnd F x) else xsgninf (rnd F x)
  | _ => a
  end.
Definition fadd F a b := fl F (xadd a b).
Definition fsub F a b := fl F (xsub a b).
Definition fmul F a b := fl F (xmul a b).
Definition fdiv F a b := fl F (xdiv a b).

(** utils/misc.py 98-100: [2.0 * (X - lb) / (ub - lb) - 1.0], left to right *)
Definition bounded_normalize_fl (F : format) (s : BoundedNormalizer) (X : nd xr) : res (nd xr) :=
  do (X, M, m) <- process_inputs X;
  do d <- bcast2 (fsub F) X (bn_lb s);
  do w <- bcast2 (fsub F) (bn_ub s) (bn_lb s);
  do q <- bcast2 (fdiv F) (amap (fmul F (Fin 2)) d) w;
  Ok (amap (fun a => fsub F a (Fin 1)) q).

(** utils/misc.py 119-121: [(ub - lb) * (X + 1.0) / 2.0 + lb] *)
Definition bounded_unnormalize_fl (F : format) (s : BoundedNormalizer) (X : nd xr) : res (nd xr) :=
  do (X, M, m) <- process_inputs X;
  do w <- bcast2 (fsub F) (bn_ub s) (bn_lb s);
  do p <- bcast2 (fmul F) w (amap (fun a => fadd F a (Fin 1)) X);
  bcast2 (fadd F) (amap (fun a => fdiv F a (Fin 2)) p) (bn_lb s).

(** An order in which a library may add up the products of a dot product:
    round the products and add the parts, or fold a product into a running sum
    with one rounding (fused multiply-add).  Overflow is left out here: the
    partial sums are of the size of the sum of the magnitudes. *)
Inductive dtree := Prod (i : nat) | Fma (t : dtree) (i : nat) | Add (l r : dtree).
Fixpoint dfl (F : format) (t : dtree) (x w : nat -> R) : R :=
  match t with
  | Prod i => rnd F (x i * w i)
  | Fma t i => rnd F (dfl F t x w + x i * w i)
  | Add l r => rnd F (dfl F l x w + dfl F r x w)
  end.
Fixpoint dleaves (t : dtree) : list nat :=
  match t with Prod i => [i] | Fma t i => dleaves t ++ [i] | Add l r => dleaves l ++ dleaves r end.
Fixpoint ddepth (t : dtree) : nat :=
  match t with Prod _ => 1 | Fma t _ => S (ddepth t) | Add l r => S (Nat.max (ddepth l) (ddepth r)) end.

(** domains.py 180 ([np.dot(X, W1)] with a W1 of one column) and integrals.py
    254: one active variable per row, the products added in the order [t] *)
Definition active_fl (F : format) (t : dtree) (X W1 : nd R) : nd R :=
  mk2 (nrows X) 1 (fun i _ => dfl F t (fun k => X.[i, k]) (fun k => W1.[k, 0%nat])).

(** domains.py 391-399: [y0 = np.dot(W1.T, np.sign(W1))[0]], then -|y0| and |y0| *)
Definition endpoints_fl (F : format) (t : dtree) (W1 : nd R) : R * R :=
  let y0 := dfl F t (fun k => W1.[k, 0%nat]) (fun k => np_sign (W1.[k, 0%nat])) in
  if Rlt_dec y0 (- y0) then (y0, - y0) else (- y0, y0).

(** the order in which [np.add.reduce] adds *)
Inductive stree := Leaf (i : nat) | Node (l r : stree).
Fixpoint sfl (F : format) (t : stree) (x : nat -> R) : R :=
  match t with Leaf i => x i | Node l r => rnd F (sfl F l x + sfl F r x) end.
Fixpoint sleaves (t : stree) : list nat :=
  match t with Leaf i => [i] | Node l r => sleaves l ++ sleaves r end.
Fixpoint sdepth (t : stree) : nat :=
  match t with Leaf _ => 0 | Node l r => S (Nat.max (sdepth l) (sdepth r)) end.

Section CondExp.
  Variable F : format.
  (** the order used for an array of that length *)
  Variable ord : nat -> stree.

  (** np.mean and np.var: the sum over the count; the squares of the rounded
      differences, again summed and divided *)
  Definition mean_fl (l : list R) : R :=
    rnd F (sfl F (ord (List.length l)) (fun i => nth i l 0) / INR (List.length l)).
  Definition var_fl (l : list R) : R :=
    let mu := mean_fl l in
    mean_fl (map (fun x => rnd F (rnd F (x - mu) * rnd F (x - mu))) l).

  (** utils/misc.py 297-304 *)
  Definition conditional_expectations_fl (f : list R) (ind : list nat) : res (list xr * list xr) :=
    do mx <- np_amax_nat ind;
    if negb (Nat.eqb (List.length f) (List.length ind)) then Err IndexError else
    let n := S mx in
    let np_mean l := match l with [] => NaN | _ => Fin (mean_fl l) end in
    let np_var l := match l with [] => NaN | _ => Fin (var_fl l) end in
    Ok (map (fun i => np_mean (select f ind i)) (seq 0 n), map (fun i => np_var (select f ind i)) (seq 0 n)).
End CondExp.
