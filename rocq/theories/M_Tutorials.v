(** Model of the test functions of the tutorials:
    tutorials/wing_functions.py and
    tutorials/test_functions/{otl_circuit,piston,borehole,wing_weight,robot}/*_functions.py.

    All of them work elementwise on the columns of the input, so a column
    expression is modelled by the expression on one row ([.._row], the row given
    as a function of the column number), and the arrays are put together from
    the rows.  The inputs are float arrays (an integer array given to borehole
    would be truncated by its assignments to slices; that is not modelled). *)
From Coq Require Import String Reals Lra Lia List Arith ZArith Bool.
From Verif Require Import Prelude Py NumArr M_Misc.
Import ListNotations.
Open Scope R_scope.

(** [x**y] for a float exponent; a number (x > 0), 0**y = 0 for y > 0.
    Elsewhere numpy gives nan or inf, the model 0: no theorem uses that. *)
Definition fpow (x y : R) : R := if Rlt_dec 0 x then Rpower x y else 0.

(** np.atleast_2d: a 0-d or 1-d array becomes a single row *)
Definition np_atleast_2d {A} (X : nd A) : nd A :=
  match shape X with
  | [] => mk2 1 1 (fun _ _ => at_ X [])
  | [n] => mk2 1 n (fun _ j => X.[j])
  | _ => X
  end.

(** np.array of a list of numbers *)
Definition np_array (l : list R) : nd xr := amap Fin (mk1 (List.length l) (fun i => nth i l 0)).
Definition fin_of (a : xr) : R := match a with Fin r => r | _ => 0 end.

(** [ac.utils.misc.BoundedNormalizer(xl, xu).unnormalize(x)]; the entries stay
    finite, so they are turned back into numbers *)
Definition unnorm (xl xu : list R) (x : nd R) : res (nd R) :=
  do s <- bounded_init (np_array xl) (np_array xu);
  do y <- bounded_unnormalize s (amap Fin x);
  Ok (amap fin_of y).

(** [(expression of columns).reshape(M, 1)], M the number of rows *)
Definition value_col (f : (nat -> R) -> R) (x : nd R) : nd R :=
  mk2 (nrows x) 1 (fun i _ => f (fun j => x.[i, j])).
(** np.hstack of the columns [expression[:,None]] *)
Definition hstack_cols (k : nat) (g : (nat -> R) -> list R) (x : nd R) : nd R :=
  mk2 (nrows x) k (fun i j => nth j (g (fun j => x.[i, j])) 0).

(* ---- otl_circuit/otlcircuit_functions.py ---- *)
Definition otl_xl := [50; 25; 5/10; 12/10; 25/100; 50].
Definition otl_xu := [150; 70; 3; 25/10; 12/10; 300].

(** lines 16-22 *)
Definition circuit_row (x : nat -> R) : R :=
  let Rb1 := x 0%nat in let Rb2 := x 1%nat in let Rf := x 2%nat in
  let Rc1 := x 3%nat in let Rc2 := x 4%nat in let beta := x 5%nat in
  let Vb1 := 12 * Rb2 / (Rb1 + Rb2) in
  let denom := beta * (Rc2 + 9) + Rf in
  (Vb1 + 74/100) * beta * (Rc2 + 9) / denom + 1135/100 * Rf / denom
    + 74/100 * Rf * beta * (Rc2 + 9) / (Rc1 * denom).

(** lines 3-22, circuit *)
Definition circuit (xx : nd R) : res (nd R) :=
  let x := np_atleast_2d xx in
  do x <- unnorm otl_xl otl_xu x;
  Ok (value_col circuit_row x).

(** lines 36-54 *)
Definition circuit_grad_row (x : nat -> R) : list R :=
  let Rb1 := x 0%nat in let Rb2 := x 1%nat in let Rf := x 2%nat in
  let Rc1 := x 3%nat in let Rc2 := x 4%nat in let beta := x 5%nat in
  let Vb1 := 12 * Rb2 / (Rb1 + Rb2) in
  let denom := beta * (Rc2 + 9) + Rf in
  let dvdRb1 := -12 * Rb2 * beta * (Rc2 + 9) / (denom * (Rb1 + Rb2) ^ 2) in
  let dvdRb2 := beta * (Rc2 + 9) / denom * (12 / (Rb1 + Rb2) - 12 * Rb2 / (Rb1 + Rb2) ^ 2) in
  let dvdRf := - (Vb1 + 74/100) * beta * (Rc2 + 9) / denom ^ 2 + 1135/100 / denom
    - 1135/100 * Rf / denom ^ 2 + 74/100 * beta * (Rc2 + 9) / (Rc1 * denom)
    - 74/100 * Rf * beta * (Rc2 + 9) / (Rc1 * denom ^ 2) in
  let dvdRc1 := - (74/100) * Rf * beta * (Rc2 + 9) / (Rc1 ^ 2 * denom) in
  let dvdRc2 := beta * (Vb1 + 74/100) / denom - (Rc2 + 9) * beta ^ 2 * (Vb1 + 74/100) / denom ^ 2
    - 1135/100 * Rf * beta / denom ^ 2 + 74/100 * Rf * beta / (Rc1 * denom)
    - 74/100 * Rf * beta ^ 2 * (Rc2 + 9) / (Rc1 * denom ^ 2) in
  let dvdbeta := (Vb1 + 74/100) * (Rc2 + 9) / denom - (Vb1 + 74/100) * beta * (Rc2 + 9) ^ 2 / denom ^ 2
    - 1135/100 * Rf * (Rc2 + 9) / denom ^ 2 + 74/100 * Rf * (Rc2 + 9) / (Rc1 * denom)
    - 74/100 * Rf * beta * (Rc2 + 9) ^ 2 / (Rc1 * denom ^ 2) in
  [dvdRb1 * (150 - 50) / 2; dvdRb2 * (70 - 25) / 2; dvdRf * (3 - 5/10) / 2;
   dvdRc1 * (25/10 - 12/10) / 2; dvdRc2 * (12/10 - 25/100) / 2; dvdbeta * (300 - 50) / 2].

(** lines 24-54, circuit_grad *)
Definition circuit_grad (xx : nd R) : res (nd R) :=
  let x := np_atleast_2d xx in
  do x <- unnorm otl_xl otl_xu x;
  Ok (hstack_cols 6 circuit_grad_row x).

(* ---- piston/piston_functions.py ---- *)
Definition piston_xl := [30; 5/1000; 2/1000; 1000; 90000; 290; 340].
Definition piston_xu := [60; 2/100; 1/100; 5000; 110000; 296; 360].

(** lines 16-23 *)
Definition piston_row (x : nat -> R) : R :=
  let M := x 0%nat in let s := x 1%nat in let V0 := x 2%nat in let k := x 3%nat in
  let P0 := x 4%nat in let Ta := x 5%nat in let T0 := x 6%nat in
  let A := P0 * s + 1962/100 * M - k * V0 / s in
  let V := s / (2 * k) * (- A + sqrt (A ^ 2 + 4 * k * P0 * V0 * Ta / T0)) in
  2 * PI * sqrt (M / (k + s ^ 2 * P0 * V0 * Ta / (T0 * V ^ 2))).

(** lines 3-23, piston *)
Definition piston (xx : nd R) : res (nd R) :=
  let x := np_atleast_2d xx in
  do x <- unnorm piston_xl piston_xu x;
  Ok (value_col piston_row x).

(** lines 37-56 *)
Definition piston_grad_row (x : nat -> R) : list R :=
  let M := x 0%nat in let s := x 1%nat in let V0 := x 2%nat in let k := x 3%nat in
  let P0 := x 4%nat in let Ta := x 5%nat in let T0 := x 6%nat in
  let A := P0 * s + 1962/100 * M - k * V0 / s in
  let V := s / (2 * k) * (- A + sqrt (A ^ 2 + 4 * k * P0 * V0 * Ta / T0)) in
  let Q := k + s ^ 2 * P0 * V0 * Ta / (T0 * V ^ 2) in
  let Rr := A ^ 2 + 4 * k * P0 * V0 * Ta / T0 in
  let dCdM := PI * fpow (M * Q) (- (5/10)) + 2 * PI * fpow M (5/10) * fpow Q (- (15/10)) * s ^ 3
      * P0 * V0 * Ta / (2 * k * T0 * V ^ 3)
      * (fpow Rr (- (5/10)) * A * (1962/100) - 1962/100) in
  let dCdS := - PI * fpow M (5/10) * fpow Q (- (15/10)) * (2 * s * P0 * V0 * Ta / (T0 * V ^ 2)
      - 2 * s ^ 2 * P0 * V0 * Ta / (T0 * V ^ 3)
        * (V / s + s / (2 * k) * (fpow Rr (- (5/10)) * A * (P0 + k * V0 / s ^ 2) - P0 - k * V0 / s ^ 2))) in
  let dCdV0 := - PI * fpow M (5/10) * fpow Q (- (15/10)) * (s ^ 2 * P0 * Ta / (T0 * V ^ 2)
      - 2 * s ^ 3 * P0 * V0 * Ta / (2 * k * T0 * V ^ 3)
        * (fpow Rr (- (5/10)) / 2 * (4 * k * P0 * Ta / T0 - 2 * A * k / s) + k / s)) in
  let dCdk := - PI * fpow M (5/10) * fpow Q (- (15/10)) * (1
      - 2 * s ^ 2 * P0 * V0 * Ta / (T0 * V ^ 3)
        * (- V / k + s / (2 * k) * (fpow Rr (- (5/10)) / 2 * (4 * P0 * V0 * Ta / T0 - 2 * A * V0 / s) + V0 / s))) in
  let dCdP0 := - PI * fpow M (5/10) * fpow Q (- (15/10)) * (s ^ 2 * V0 * Ta / (T0 * V ^ 2)
      - 2 * s ^ 3 * P0 * V0 * Ta / (2 * k * T0 * V ^ 3)
        * (fpow Rr (- (5/10)) / 2 * (4 * k * V0 * Ta / T0 + 2 * A * s) - s)) in
  let dCdTa := - PI * fpow M (5/10) * fpow Q (- (15/10)) * (s ^ 2 * P0 * V0 / (T0 * V ^ 2)
      - 2 * s ^ 3 * P0 * V0 * Ta / (2 * k * T0 * V ^ 3)
        * (fpow Rr (- (5/10)) / 2 * 4 * k * P0 * V0 / T0)) in
  let dCdT0 := PI * fpow M (5/10) * fpow Q (- (15/10)) * (s ^ 2 * P0 * V0 * Ta / (T0 ^ 2 * V ^ 2)
      + 2 * s ^ 3 * P0 * V0 * Ta / (2 * k * T0 * V ^ 3)
        * (- fpow Rr (- (5/10)) / 2 * 4 * k * P0 * V0 * Ta / T0 ^ 2)) in
  [dCdM * (60 - 30) / 2; dCdS * (2/100 - 5/1000) / 2; dCdV0 * (1/100 - 2/1000) / 2;
   dCdk * (5000 - 1000) / 2; dCdP0 * (110000 - 90000) / 2; dCdTa * (296 - 290) / 2;
   dCdT0 * (360 - 340) / 2].

(** lines 25-56, piston_grad *)
Definition piston_grad (xx : nd R) : res (nd R) :=
  let x := np_atleast_2d xx in
  do x <- unnorm piston_xl piston_xu x;
  Ok (hstack_cols 7 piston_grad_row x).

(* ---- borehole/borehole_functions.py ---- *)
Definition bore_xl := [63070; 990; 631/10; 700; 1120; 9855].
Definition bore_xu := [115600; 1110; 116; 820; 1680; 12045].

(** lines 8-17 (and 33-42): the last columns are unnormalized, the first two
    are turned into a normal and a lognormal variable.  [x[:,2:] = ...] raises
    ValueError unless x[:,2:] has the six columns of the bounds. *)
Definition bore_inputs (xx : nd R) : res (nd R) :=
  let x := np_atleast_2d xx in
  match shape x with
  | [M; m] =>
      do y <- unnorm bore_xl bore_xu (mk2 M (m - 2) (fun i j => x.[i, (j + 2)%nat]));
      if negb (Nat.eqb (m - 2) (ncols y)) then Err ValueError else
      let x := mk2 M m (fun i j => if Nat.leb 2 j then y.[i, (j - 2)%nat] else x.[i, j]) in
      let x := mk2 M m (fun i j => if Nat.eqb j 0 then 161812/10000000 * x.[i, 0%nat] + 1/10 else x.[i, j]) in
      Ok (mk2 M m (fun i j => if Nat.eqb j 1 then exp (10056/10000 * x.[i, 1%nat] + 771/100) else x.[i, j]))
  | _ => Err ValueError
  end.

(** lines 19-24 *)
Definition borehole_row (x : nat -> R) : R :=
  let rw := x 0%nat in let r := x 1%nat in let Tu := x 2%nat in let Hu := x 3%nat in
  let Tl := x 4%nat in let Hl := x 5%nat in let L := x 6%nat in let Kw := x 7%nat in
  2 * PI * Tu * (Hu - Hl) / (ln (r / rw) * (1 + 2 * L * Tu / (ln (r / rw) * rw ^ 2 * Kw) + Tu / Tl)).

(** lines 4-24, borehole *)
Definition borehole (xx : nd R) : res (nd R) :=
  do x <- bore_inputs xx;
  Ok (value_col borehole_row x).

(** lines 44-60; [z**-2] is the inverse of the square, and
    line 58 turns r back into its normalized variable *)
Definition borehole_grad_row (x : nat -> R) : list R :=
  let rw := x 0%nat in let r := x 1%nat in let Tu := x 2%nat in let Hu := x 3%nat in
  let Tl := x 4%nat in let Hl := x 5%nat in let L := x 6%nat in let Kw := x 7%nat in
  let Q := 1 + 2 * L * Tu / (ln (r / rw) * rw ^ 2 * Kw) + Tu / Tl in
  let l := ln (r / rw) in
  let dfdrw := -2 * PI * Tu * (Hu - Hl) * / (Q * l) ^ 2
      * (- Q / rw - l * 2 * L * Tu / Kw * / (l * rw ^ 2) ^ 2 * (- rw + 2 * rw * l)) in
  let dfdr := -2 * PI * Tu * (Hu - Hl) * / (l * Q) ^ 2 * (Q / r - 2 * L * Tu / (r * rw ^ 2 * Kw * l)) in
  let dfdTu := 2 * PI * (Hu - Hl) / (l * Q)
      - 2 * PI * Tu * (Hu - Hl) * / (l * Q) ^ 2 * (l * (2 * L / (l * rw ^ 2 * Kw) + 1 / Tl)) in
  let dfdHu := 2 * PI * Tu / (l * Q) in
  let dfdTl := 2 * PI * Tu * (Hu - Hl) * / (l * Q) ^ 2 * l * Tu / Tl ^ 2 in
  let dfdHl := -2 * PI * Tu / (l * Q) in
  let dfdL := -2 * PI * Tu * (Hu - Hl) * / (l * Q) ^ 2 * 2 * Tu / (rw ^ 2 * Kw) in
  let dfdKw := 2 * PI * Tu * (Hu - Hl) * / (l * Q) ^ 2 * 2 * L * Tu / (rw ^ 2 * Kw ^ 2) in
  let r' := ln r in
  let r' := (r' - 771/100) / (10056/10000) in
  [dfdrw * (161812/10000000); dfdr * (10056/10000) * exp (10056/10000 * r' + 771/100);
   dfdTu * (115600 - 63070) / 2; dfdHu * (1110 - 990) / 2; dfdTl * (116 - 631/10) / 2;
   dfdHl * (820 - 700) / 2; dfdL * (1680 - 1120) / 2; dfdKw * (12045 - 9855) / 2].

(** lines 26-60, borehole_grad *)
Definition borehole_grad (xx : nd R) : res (nd R) :=
  do x <- bore_inputs xx;
  Ok (hstack_cols 8 borehole_grad_row x).

(* ---- wing_weight/wing_functions.py ---- *)
Definition wing_xl := [150; 220; 6; -10; 16; 5/10; 8/100; 25/10; 1700; 25/1000].
Definition wing_xu := [200; 300; 10; 10; 45; 1; 18/100; 6; 2500; 8/100].

(** the product of lines 19 and 36 (tutorials/wing_functions.py 14 and 26) *)
Definition wing_Q (x : nat -> R) : R :=
  let Sw := x 0%nat in let Wfw := x 1%nat in let A := x 2%nat in let L := x 3%nat * PI / 180 in
  let q := x 4%nat in let l := x 5%nat in let tc := x 6%nat in let Nz := x 7%nat in
  let Wdg := x 8%nat in
  36/1000 * fpow Sw (758/1000) * fpow Wfw (35/10000) * fpow A (6/10) * fpow (cos L) (- (9/10))
    * fpow q (6/1000) * fpow l (4/100) * fpow 100 (- (3/10)) * fpow tc (- (3/10)) * fpow Nz (49/100)
    * fpow Wdg (49/100).
Definition wing_row (x : nat -> R) : R := wing_Q x + x 0%nat * x 9%nat.

(** lines 3-19, wing *)
Definition wing (xx : nd R) : res (nd R) :=
  let x := np_atleast_2d xx in
  do x <- unnorm wing_xl wing_xu x;
  Ok (value_col wing_row x).

(** lines 38-47 (tutorials/wing_functions.py 28-37): the partial derivatives;
    dfdL is the one with respect to the angle in radians *)
Definition wing_partials (x : nat -> R) : list R :=
  let Sw := x 0%nat in let Wfw := x 1%nat in let A := x 2%nat in let L := x 3%nat * PI / 180 in
  let q := x 4%nat in let l := x 5%nat in let tc := x 6%nat in let Nz := x 7%nat in
  let Wdg := x 8%nat in let Wp := x 9%nat in
  let Q := wing_Q x in
  [758/1000 * Q / Sw + Wp; 35/10000 * Q / Wfw; 6/10 * Q / A; 9/10 * Q * sin L / cos L;
   6/1000 * Q / q; 4/100 * Q / l; - (3/10) * Q / tc; 49/100 * Q / Nz; 49/100 * Q / Wdg; Sw].

(** lines 50-51 *)
Definition wing_grad_row (x : nat -> R) : list R :=
  let d j := nth j (wing_partials x) 0 in
  [d 0%nat * (200 - 150) / 2; d 1%nat * (300 - 220) / 2; d 2%nat * (10 - 6) / 2;
   d 3%nat * (10 + 10) * PI / (2 * 180); d 4%nat * (45 - 16) / 2; d 5%nat * (1 - 5/10) / 2;
   d 6%nat * (18/100 - 8/100) / 2; d 7%nat * (6 - 25/10) / 2; d 8%nat * (2500 - 1700) / 2;
   d 9%nat * (8/100 - 25/1000) / 2].

(** lines 21-51, wing_grad *)
Definition wing_grad (xx : nd R) : res (nd R) :=
  let x := np_atleast_2d xx in
  do x <- unnorm wing_xl wing_xu x;
  Ok (hstack_cols 10 wing_grad_row x).

(* ---- tutorials/wing_functions.py: the inputs are not normalized ---- *)
(** x[:,0] .. x[:,9] of a 2-d array (arrays of higher rank are not modelled) *)
Definition ten_columns (x : nd R) : res (nd R) :=
  match shape x with
  | [_; m] => if Nat.ltb m 10 then Err IndexError else Ok x
  | _ => Err ValueError
  end.
(** lines 3-14, wing *)
Definition tut_wing (xx : nd R) : res (nd R) :=
  do x <- ten_columns (np_atleast_2d xx);
  Ok (value_col wing_row x).
(** lines 16-39, wing_grad *)
Definition tut_wing_grad (xx : nd R) : res (nd R) :=
  do x <- ten_columns (np_atleast_2d xx);
  Ok (hstack_cols 10 wing_partials x).

(* ---- robot/robot_functions.py ---- *)
Definition robot_xl := [0; 0; 0; 0; 0; 0; 0; 0].
Definition robot_xu := [2 * PI; 2 * PI; 2 * PI; 2 * PI; 1; 1; 1; 1].

(** lines 22-23 (and 47-48) *)
Definition robot_u (x : nat -> R) : R :=
  let t1 := x 0%nat in let t2 := x 1%nat in let t3 := x 2%nat in let t4 := x 3%nat in
  x 4%nat * cos t1 + x 5%nat * cos (t1 + t2) + x 6%nat * cos (t1 + t2 + t3)
    + x 7%nat * cos (t1 + t2 + t3 + t4).
Definition robot_v (x : nat -> R) : R :=
  let t1 := x 0%nat in let t2 := x 1%nat in let t3 := x 2%nat in let t4 := x 3%nat in
  x 4%nat * sin t1 + x 5%nat * sin (t1 + t2) + x 6%nat * sin (t1 + t2 + t3)
    + x 7%nat * sin (t1 + t2 + t3 + t4).
(** line 25 *)
Definition robot_row (x : nat -> R) : R := fpow (robot_u x ^ 2 + robot_v x ^ 2) (5/10).

(** lines 3-25, robot *)
Definition robot (xx : nd R) : res (nd R) :=
  let x := np_atleast_2d xx in
  do x <- unnorm robot_xl robot_xu x;
  Ok (value_col robot_row x).

(** lines 49-61 *)
Definition robot_grad_row (x : nat -> R) : list R :=
  let t1 := x 0%nat in let t2 := x 1%nat in let t3 := x 2%nat in let t4 := x 3%nat in
  let L1 := x 4%nat in let L2 := x 5%nat in let L3 := x 6%nat in let L4 := x 7%nat in
  let u := robot_u x in let v := robot_v x in
  let p := fpow (u ^ 2 + v ^ 2) (- (5/10)) in
  let dfdt1 := 0 in
  let dfdt2 := - (p * (L1 * (v * cos t1 - u * sin t1))) in
  let dfdt3 := - (p * (L1 * (v * cos t1 - u * sin t1) + L2 * (v * cos (t1 + t2) - u * sin (t1 + t2)))) in
  let dfdt4 := - (p * (L1 * (v * cos t1 - u * sin t1) + L2 * (v * cos (t1 + t2) - u * sin (t1 + t2))
      + L3 * (v * cos (t1 + t2 + t3) - u * sin (t1 + t2 + t3)))) in
  let dfdL1 := 5/10 * p * (2 * u * cos t1 + 2 * v * sin t1) in
  let dfdL2 := 5/10 * p * (2 * u * cos (t1 + t2) + 2 * v * sin (t1 + t2)) in
  let dfdL3 := 5/10 * p * (2 * u * cos (t1 + t2 + t3) + 2 * v * sin (t1 + t2 + t3)) in
  let dfdL4 := 5/10 * p * (2 * u * cos (t1 + t2 + t3 + t4) + 2 * v * sin (t1 + t2 + t3 + t4)) in
  [dfdt1 * (2 * PI) / 2; dfdt2 * (2 * PI) / 2; dfdt3 * (2 * PI) / 2; dfdt4 * (2 * PI) / 2;
   dfdL1 * 1 / 2; dfdL2 * 1 / 2; dfdL3 * 1 / 2; dfdL4 * 1 / 2].

(** lines 27-61, robot_grad *)
Definition robot_grad (xx : nd R) : res (nd R) :=
  let x := np_atleast_2d xx in
  do x <- unnorm robot_xl robot_xu x;
  Ok (hstack_cols 8 robot_grad_row x).
