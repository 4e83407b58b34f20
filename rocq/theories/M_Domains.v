(** Model of active_subspaces/domains.py *)
From Coq Require Import String Reals Lra Lia List Arith ZArith Bool.
From Verif Require Import Prelude Py NumArr M_Misc M_RespSurf M_Gradients M_Subspaces M_QP.
Import ListNotations.
Open Scope R_scope.

(** ** NumPy pieces *)

Definition Rleb (a b : R) : bool := if Rle_dec a b then true else false.
Definition Rltb (a b : R) : bool := if Rlt_dec a b then true else false.
(** all entries of a list of flags / all entries of an r-by-c table *)
Definition all2 (X : nd bool) : bool :=
  forallb (fun i => forallb (fun j => X.[i, j]) (seq 0 (ncols X))) (seq 0 (nrows X)).
Definition any2 (X : nd bool) : bool :=
  existsb (fun i => existsb (fun j => X.[i, j]) (seq 0 (ncols X))) (seq 0 (nrows X)).
(** a size given by a Python int: negative dimensions raise ValueError *)
Definition dimZ (n : Z) : res nat := if Z.ltb n 0 then Err ValueError else Ok (Z.to_nat n).
(** row i of a 2-d array, as a 1-d array (iteration [for y in Y]) *)
Definition row1 {A} (X : nd A) (i : nat) : nd A := mk1 (ncols X) (fun j => X.[i, j]).
(** 2-d array with the given list of 1-d rows, each of length c *)
Definition of_rows (c : nat) (l : list (nd R)) : nd R :=
  mk2 (List.length l) c (fun i j => (nth i l (mk1 c (fun _ => 0))).[j]).
(** finite value of a float *)
Definition fin (a : xr) : R := match a with Fin r => r | _ => 0 end.
(** np.amin / np.amax of a list of floats, ValueError when empty *)
Definition xle (a b : xr) : bool := negb (xbefore b a).
Definition xmin (a b : xr) : xr := if xle a b then a else b.
Definition np_amin (l : list xr) : res xr :=
  match l with [] => Err ValueError | a :: t => Ok (fold_left xmin t a) end.
(** np.amax; NaN does not occur at the call *)
Definition xmax (a b : xr) : xr := if xle a b then b else a.
Definition np_amax (l : list xr) : res xr :=
  match l with [] => Err ValueError | a :: t => Ok (fold_left xmax t a) end.
(** np.linalg.norm of an m-by-1 array *)
Definition norm_col (X : nd R) : R := sqrt (sumf (nrows X) (fun i => sumf (ncols X) (fun j => X.[i, j] * X.[i, j]))).

(** ** Floats that np.sign and its negation produce.

    np.sign gives 1.0, -1.0 or 0.0; -X turns 0.0 into -0.0, which differs from
    0.0 as bytes.  The order is that of the bytes (little endian IEEE doubles):
    0.0 < -0.0 < 1.0 < -1.0. *)
Inductive fsgn := SZero | SNZero | SPos | SNeg.
Definition fsign (x : R) : fsgn := if Rlt_dec 0 x then SPos else if Rlt_dec x 0 then SNeg else SZero.
Definition fneg (s : fsgn) : fsgn := match s with SZero => SNZero | SNZero => SZero | SPos => SNeg | SNeg => SPos end.
Definition fval (s : fsgn) : R := match s with SPos => 1 | SNeg => -1 | _ => 0 end.
Definition fbyte (s : fsgn) : nat := match s with SZero => 0 | SNZero => 1 | SPos => 2 | SNeg => 3 end.
(** comparison of rows as byte strings *)
Fixpoint rowcmp (a b : list fsgn) : comparison :=
  match a, b with
  | [], [] => Eq
  | [], _ => Lt
  | _, [] => Gt
  | x :: a', y :: b' => match Nat.compare (fbyte x) (fbyte y) with Eq => rowcmp a' b' | c => c end
  end.

(** domains.py 403-421, unique_rows: np.unique of the rows viewed as byte
    strings: sorted, without repetitions *)
Fixpoint uinsert (x : list fsgn) (l : list (list fsgn)) : list (list fsgn) :=
  match l with
  | [] => [x]
  | y :: t => match rowcmp x y with Lt => x :: l | Eq => l | Gt => y :: uinsert x t end
  end.
Definition unique_rows (S : list (list fsgn)) : list (list fsgn) := fold_right uinsert [] S.

(** domains.py 342-370, nzv.  scipy.misc.comb is the binomial coefficient,
    0 when k > N or N < 0; its floating-point rounding is not modelled. *)
Definition comb (N : Z) (k : nat) : nat := if Z.ltb N 0 then 0%nat else binom (Z.to_nat N) k.
Definition nzv (m n : pyarg Z) : res Z :=
  match m, n with
  | NotA, _ => Err TypeError
  | _, NotA => Err TypeError
  | IsA m, IsA n => Ok (2 * Z.of_nat (fold_left (fun N i => N + comb (m - 1) i)%nat (seq 0 (Z.to_nat n)) 0%nat))%Z
  end.

(** domains.py 372-401, interval_endpoints *)
Definition interval_endpoints (W1 : nd R) : res (nd R * nd R) :=
  do (m, _) <- shape2 W1;
  do D <- npdot (tr W1) (amap np_sign W1);
  do y0 <- first2 D;
  if negb (Nat.eqb (size y0) 1) then Err ValueError else      (* truth value of an array *)
  let ny := amap Ropp y0 in
  let sg := amap np_sign W1 in
  let '(yl, yu, xl, xu) :=
    if Rlt_dec (y0.[0%nat]) (ny.[0%nat]) then (y0, ny, sg, amap Ropp sg) else (ny, y0, amap Ropp sg, sg) in
  do Y <- reshape [2%nat; 1%nat] (mk2 2 1 (fun i _ => match i with O => yl.[0%nat] | _ => yu.[0%nat] end));
  do xl' <- reshape [1%nat; m] xl;
  do xu' <- reshape [1%nat; m] xu;
  do X <- vstack xl' xu';
  Ok (Y, X).

(** domains.py 746-758, _rotate_x *)
Definition rotate_x (Y Z Wm : nd R) : res (nd R * nd R) :=
  do (NY, n) <- shape2 Y;
  match shape Z with
  | [NZ; k; N] =>
      let m := (n + k)%nat in
      do Y3 <- reshape [NY; n; 1%nat] Y;
      let YY := mk3 NY n N (fun i j _ => Y3.[i, j, 0%nat]) in             (* np.tile(.., (1,1,N)) *)
      do _ <- guard (Nat.eqb NY NZ) ValueError;                           (* np.concatenate *)
      let C := mk3 NY m N (fun i j l => if Nat.ltb j n then YY.[i, j, l] else Z.[i, (j - n)%nat, l]) in
      let T := mk3 m NY N (fun j i l => C.[i, j, l]) in                    (* transpose((1,0,2)) *)
      do T2 <- reshape [m; (N * NY)%nat] T;
      let YZ := tr T2 in
      do XW <- npdot YZ (tr Wm);
      do X <- reshape [(N * NY)%nat; m] XW;
      do ind <- reshape [(N * NY)%nat; 1%nat] (mk1 (NY * N) (fun r => INR (r / N) * 1));  (* np.kron(np.arange(NY), np.ones(N)) *)
      Ok (X, ind)
  | _ => Err IndexError
  end.

(** ** Domains and maps *)

(** which class the domain object has *)
Inductive dkind := DUnbounded | DBounded | DBase.
(** attributes of the domain objects, domains.py 9-39; the hull is represented
    by its [equations]; a constraint by its functions 'fun' and 'jac' *)
Record avdomain := AVD {
  d_kind : dkind; d_subs : subspaces; d_m : nat; d_n : nat;
  d_vertY : option (nd R); d_vertX : option (nd R);
  d_hull : option (nd R); d_cons : option ((nd R -> res (nd R)) * (nd R -> res (nd R)))
}.
(** domains.py 52-67, UnboundedActiveVariableDomain.__init__ *)
Definition unbounded_domain (s : pyarg subspaces) : res avdomain :=
  match s with
  | NotA => Err TypeError
  | IsA s =>
      match s_W1 s with
      | None => Err ValueError
      | Some W1 => do (m, n) <- shape2 W1; Ok (AVD DUnbounded s m n None None None None)
      end
  end.

(** which map class: base, BoundedActiveVariableMap, UnboundedActiveVariableMap *)
Inductive mkind := MBounded | MUnbounded | MBase.
Record avmap := AVM { av_kind : mkind; av_domain : avdomain }.

(** domains.py 156-181, forward.  None.dot (subspaces not partitioned) raises
    AttributeError/ValueError; any exception will do. *)
Definition need {A} (x : option A) : res A := match x with Some a => Ok a | None => Err AttributeError end.
Definition av_forward (a : avmap) (X : nd R) : res (nd R * nd R) :=
  do (X, M, m) <- process_inputs X;
  do W1 <- need (s_W1 (d_subs (av_domain a)));
  do W2 <- need (s_W2 (d_subs (av_domain a)));
  do Y <- npdot X W1;
  do Z <- npdot X W2;
  Ok (Y, Z).

Section Domains.
  Context {G : gen} {U L : Type}.
  Notation W := (world G U L).
  Variable B : backend.
  (** scipy.spatial.ConvexHull(points).equations *)
  Variable convex_hull : nd R -> res (nd R).

  (** np.random.normal(size=(r, c)), np.random.uniform(lo, hi, size=(r, c)) *)
  Definition normal2 (r c : nat) : M W (nd R) :=
    dom l <- repeatM (r * c) draw_normal; mret (mk2 r c (fun i j => nth (i * c + j) l 0)).
  Definition uniform2 (lo hi : R) (r c : nat) : M W (nd R) :=
    dom l <- repeatM (r * c) (draw_uniform lo hi); mret (mk2 r c (fun i j => nth (i * c + j) l 0)).
  Definition normal3 (a b c : nat) : M W (nd R) :=
    dom l <- repeatM (a * b * c) draw_normal; mret (mk3 a b c (fun i j k => nth ((i * b + j) * c + k) l 0)).

  (** unique_rows(np.sign(np.dot(Z, W1.transpose()))) with Z fresh, and its
      closure under negation: domains.py 453-455 and 460-462 *)
  Definition sign_rows (P : nd R) : list (list fsgn) :=
    map (fun i => map (fun j => fsign (P.[i, j])) (seq 0 (ncols P))) (seq 0 (nrows P)).
  Definition sample_signs (W1 : nd R) (n Nsamples : nat) : M W (list (list fsgn)) :=
    dom Z <- normal2 Nsamples n;
    dom P <- mlift (npdot Z (tr W1));
    let X := unique_rows (sign_rows P) in
    mret (unique_rows (X ++ map (map fneg) X)).

  (** lines 458-467: [rem] rounds may still follow this one *)
  Fixpoint zono_loop (W1 : nd R) (n Nsamples : nat) (total : Z) (rem : nat) (X : list (list fsgn)) : M W (list (list fsgn)) :=
    if Z.ltb (Z.of_nat (List.length X)) total then
      dom X0 <- sample_signs W1 n Nsamples;
      let X := unique_rows (X ++ X0) in
      match rem with
      | O => mret X
      | S rem => zono_loop W1 n Nsamples total rem X
      end
    else mret X.

  (** domains.py 423-474, zonotope_vertices, for integer Nsamples and maxcount.
      The printed warning is not modelled. *)
  Definition zonotope_vertices (W1 : nd R) (Nsamples maxcount : Z) : M W (nd R * nd R) :=
    dom (m, n) <- mlift (shape2 W1);
    dom totalverts <- mlift (nzv (IsA (Z.of_nat m)) (IsA (Z.of_nat n)));
    dom Ns <- mlift (dimZ Nsamples);
    dom X <- sample_signs W1 n Ns;
    dom X <- zono_loop W1 n Ns totalverts (Z.to_nat maxcount) X;
    let numverts := List.length X in
    let XM := mk2 numverts m (fun i j => fval (nth j (nth i X []) SZero)) in
    dom Y <- mlift (npdot XM W1);
    dom Y <- mlift (reshape [numverts; n] Y);
    dom XM <- mlift (reshape [numverts; m] XM);
    mret (Y, XM).

  (** the constraint dictionary, domains.py 121-125: [equations[:,:n]],
      [equations[:,n]]; fun: np.dot(A, x) - b, jac: A *)
  Definition hull_cons (eqs : nd R) (n : nat) : (nd R -> res (nd R)) * (nd R -> res (nd R)) :=
    let A := cols_slice eqs 0 n in
    let b := mk1 (nrows eqs) (fun i => eqs.[i, n]) in
    (fun x => do Ax <- npdot A x; bcast Rminus Ax b, fun _ => Ok A).

  (** domains.py 99-129, compute_boundary *)
  Definition compute_boundary (d : avdomain) : M W avdomain :=
    dom W1 <- mlift (need (s_W1 (d_subs d)));
    dom (m, n) <- mlift (shape2 W1);
    if Nat.eqb n 1 then
      dom (Y, X) <- mlift (interval_endpoints W1);
      mret (AVD (d_kind d) (d_subs d) (d_m d) (d_n d) (Some Y) (Some X) None None)
    else
      dom (Y, X) <- zonotope_vertices W1 10000 100000;
      dom eqs <- mlift (convex_hull Y);
      mret (AVD (d_kind d) (d_subs d) (d_m d) (d_n d) (Some Y) (Some X) (Some eqs) (Some (hull_cons eqs n))).

  (** domains.py 81-97, BoundedActiveVariableDomain.__init__ *)
  Definition bounded_domain (s : pyarg subspaces) : M W avdomain :=
    match s with
    | NotA => merr TypeError
    | IsA s =>
        match s_W1 s with
        | None => merr ValueError
        | Some W1 => dom (m, n) <- mlift (shape2 W1); compute_boundary (AVD DBounded s m n None None None None)
        end
    end.

  (** ** Sampling the inactive variables *)

  (** s = np.dot(W1, y).reshape((m, 1)) *)
  Definition shift_of (W1 y : nd R) (m : nat) : res (nd R) := do s <- npdot W1 y; reshape [m; 1%nat] s.
  (** A = np.vstack((W2, -W2)), b = np.vstack((-1-s, -1+s)).reshape((2*m, 1)):
      the polytope A z >= b; lines 579-581 and 660-661 *)
  Definition polytope (W2 s : nd R) (m : nat) : res (nd R * nd R) :=
    do A <- vstack W2 (amap Ropp W2);
    do b <- vstack (amap (fun x => -1 - x) s) (amap (fun x => -1 + x) s);
    do b <- reshape [(2 * m)%nat; 1%nat] b;
    Ok (A, b).
  (** np.zeros((k,1)) with one entry set *)
  Definition unit_col (k i : nat) (v : R) : nd R := mk2 k 1 (fun r _ => if Nat.eqb r i then v else 0).

  (** domains.py 624-678, rejection_sampling_z; None when too few points fall
      in the polytope *)
  Definition rejection_sampling_z (N : Z) (y W1 W2 : nd R) : M W (option (nd R)) :=
    dom (m, n) <- mlift (shape2 W1);
    dom s <- mlift (shift_of W1 y m);
    dom (A, b) <- mlift (polytope W2 s m);
    dom _ <- mlift (guard (Nat.leb n m) ValueError);
    let k := (m - n)%nat in
    let qps := qp_init B "GUROBI" in
    dom box <- mmap (fun i =>
        dom zl <- linear_program_ineq B qps (unit_col k i 1) A b;
        dom l <- mlift (get2 zl i 0);
        dom zu <- linear_program_ineq B qps (unit_col k i (-1)) A b;
        dom u <- mlift (get2 zu i 0);
        mret (l, u)) (seq 0 k);
    let lbox := mk2 1 k (fun _ j => Fin (fst (nth j box (0, 0)))) in
    let ubox := mk2 1 k (fun _ j => Fin (snd (nth j box (0, 0)))) in
    dom bn <- mlift (bounded_init lbox ubox);
    dom r <- mlift (dimZ (50 * N));
    dom Zu <- uniform2 (-1) 1 r k;
    dom Zx <- mlift (bounded_unnormalize bn (amap Fin Zu));
    let Zbox := amap fin Zx in
    dom AZ <- mlift (npdot A (tr Zbox));
    dom ge <- mlift (bcast2 (fun a b => Rleb b a) AZ b);
    let ind := map (fun j => forallb (fun i => ge.[i, j]) (seq 0 (nrows ge))) (seq 0 (ncols ge)) in
    let keep := mask_select (seq 0 (nrows Zbox)) ind in
    if Z.leb N (Z.of_nat (List.length keep)) then
      let N := Z.to_nat N in
      let Zf := of_rows k (map (row1 Zbox) (firstn N keep)) in
      dom Zr <- mlift (reshape [N; k] Zf);
      mret (Some Zr)
    else mret None.

  (** domains.py 563-576: initial feasible point of hit_and_run_z, the centre
      of the largest inscribed ball *)
  Definition chebyshev_start (y W1 W2 : nd R) : M W (nd R) :=
    dom (m, n) <- mlift (shape2 W1);
    let k := (m - n)%nat in
    dom s <- mlift (shift_of W1 y m);
    dom normW2 <- mlift (reshape [m; 1%nat] (mk1 (nrows W2) (fun i => sqrt (sumf (ncols W2) (fun j => (W2.[i, j]) ^ 2)))));
    dom A1 <- mlift (vstack W2 (amap Ropp W2));
    dom A2 <- mlift (vstack normW2 normW2);
    dom A <- mlift (hstack A1 A2);
    dom b <- mlift (vstack (amap (fun x => 1 - x) s) (amap (fun x => 1 + x) s));
    dom b <- mlift (reshape [(2 * m)%nat; 1%nat] b);
    dom _ <- mlift (guard (Nat.leb n m) ValueError);
    let c := unit_col (k + 1) k (-1) in
    dom zc <- linear_program_ineq B (qp_init B "GUROBI") c (amap Ropp A) (amap Ropp b);
    mlift (reshape [k; 1%nat] (rows_slice zc 0 (nrows zc - 1))).

  Definition eps0 : R := / 10 ^ 6 / 4.              (* ztol/4.0, ztol = 1e-6 *)
  Definition sqrt_eps : R := sqrt (/ 2 ^ 52).       (* np.sqrt(np.finfo(np.float).eps) *)

  (** lines 590-599: a direction along which a small step stays strictly inside;
      None on the 50th attempt *)
  Fixpoint pick_dir (A b z0 : nd R) (k rem : nat) : M W (option (nd R)) :=
    dom d <- normal2 k 1;
    dom t <- mlift (bcast2 Rplus z0 (amap (Rmult eps0) d));
    dom At <- mlift (npdot A t);
    dom le <- mlift (bcast2 Rleb At b);
    let bad_dir := any2 le in
    match rem with
    | O => mret None
    | S rem => if bad_dir then pick_dir A b z0 k rem else mret (Some d)
    end.

  (** lines 604-610: f[ind]/g[ind] where g satisfies [sel] and f < -sqrt(eps) *)
  Definition ratios (f g : nd R) (sel : R -> bool) : list xr :=
    map (fun i => xdiv (Fin (f.[i, 0%nat])) (Fin (g.[i, 0%nat])))
      (filter (fun i => sel (g.[i, 0%nat]) && Rltb (f.[i, 0%nat]) (- sqrt_eps))%bool (seq 0 (nrows f))).
  (** np.random.uniform(lo, hi): an infinite range raises OverflowError *)
  Definition uniform_x (lo hi : xr) : M W R :=
    match lo, hi with Fin l, Fin h => draw_uniform l h | _, _ => merr OverflowError end.
  (** lines 601-617: one step *)
  Definition hr_step (A b z0 d : nd R) : M W (nd R) :=
    dom Az <- mlift (npdot A z0);
    dom f <- mlift (bcast2 Rminus b Az);
    dom g <- mlift (npdot A d);
    dom eps_max <- mlift (np_amin (ratios f g (fun g => Rleb g 0)));
    dom eps_min <- mlift (np_amax (ratios f g (fun g => Rltb 0 g)));
    dom eps1 <- uniform_x eps_min eps_max;
    mlift (bcast2 Rplus z0 (amap (Rmult eps1) d)).
  (** lines 588-622: the rows still to be filled *)
  Fixpoint hr_walk (A b z0 : nd R) (k rows : nat) : M W (list (nd R)) :=
    match rows with
    | O => mret []
    | S rows' =>
        dom od <- pick_dir A b z0 k 49;
        match od with
        | None => mret (repeat z0 (S rows'))
        | Some d => dom z1 <- hr_step A b z0 d; dom rest <- hr_walk A b z1 k rows'; mret (z1 :: rest)
        end
    end.

  (** domains.py 532-622, hit_and_run_z *)
  Definition hit_and_run_z (N : Z) (y W1 W2 : nd R) : M W (nd R) :=
    dom (m, n) <- mlift (shape2 W1);
    let k := (m - n)%nat in
    dom z0 <- chebyshev_start y W1 W2;
    dom s <- mlift (shift_of W1 y m);
    dom (A, b) <- mlift (polytope W2 s m);
    dom N <- mlift (dimZ N);
    dom l <- hr_walk A b z0 k N;
    mret (of_rows k (map (fun z => mk1 k (fun j => z.[j, 0%nat])) l)).

  (** domains.py 477-530, sample_z *)
  Definition sample_z (N : pyarg Z) (y W1 W2 : nd R) : M W (nd R) :=
    match N with
    | NotA => merr TypeError
    | IsA N =>
        dom Z <- rejection_sampling_z N y W1 W2;
        match Z with
        | Some Z => mret Z
        | None => hit_and_run_z N y W1 W2
        end
    end.

  (** np.all(np.dot(W2, z) <= 1-s) and np.all(np.dot(W2, z) >= -1-s) *)
  Definition in_polytope (W2 s z : nd R) : res bool :=
    do Wz <- npdot W2 z;
    do le <- bcast2 Rleb Wz (amap (fun x => 1 - x) s);
    do ge <- bcast2 (fun a b => Rleb b a) Wz (amap (fun x => -1 - x) s);
    Ok (all2 le && all2 ge)%bool.
  (** lines 732-734 and 739-741: propose and accept *)
  Definition rw_step (W2 s : nd R) (sig : R) (z0 : nd R) : M W (nd R) :=
    dom d <- normal2 (nrows z0) (ncols z0);
    dom zc <- mlift (bcast2 Rplus z0 (amap (Rmult sig) d));
    dom ok <- mlift (in_polytope W2 s zc);
    mret (if (ok : bool) then zc else z0).
  (** lines 736-742: the columns of Z *)
  Fixpoint rw_walk (W2 s : nd R) (sig : R) (z0 : nd R) (cols : nat) : M W (list (nd R)) :=
    match cols with
    | O => mret []
    | S c => dom z1 <- rw_step W2 s sig z0; dom rest <- rw_walk W2 s sig z1 c; mret (z1 :: rest)
    end.
  (** domains.py 680-744, random_walk_z *)
  Definition random_walk_z (N : Z) (y W1 W2 : nd R) : M W (nd R) :=
    dom (m, n) <- mlift (shape2 W1);
    let k := (m - n)%nat in
    dom s <- mlift (shift_of W1 y m);
    dom z0 <-
      (if (all2 (mk2 m 1 (fun i _ => Rleb 0 (1 - s.[i, 0%nat]))) && all2 (mk2 m 1 (fun i _ => Rleb (-1 - s.[i, 0%nat]) 0)))%bool
       then mret (zeros2 k 1)
       else
         dom y' <- mlift (reshape [n; 1%nat] y);
         dom x0 <- linear_program_eq B (qp_init B "GUROBI") (zeros2 m 1) (tr W1) y' (mk2 m 1 (fun _ _ => -1)) (ones2 m 1);
         dom z <- mlift (npdot (tr W2) x0);
         mlift (reshape [k; 1%nat] z));
    dom Wz <- mlift (npdot W2 z0);
    dom ws <- mlift (bcast2 Rplus Wz s);
    let sig := / 10 * Rmin (norm_col (amap (fun x => x - 1) ws)) (norm_col (amap (fun x => x + 1) ws)) in
    dom z0 <- mfold (fun z _ => rw_step W2 s sig z) z0 (seq 0 (Z.to_nat (10 * N)));
    dom Nn <- mlift (dimZ N);
    dom l <- rw_walk W2 s sig z0 Nn;
    mlift (reshape [Nn; k] (mk2 k Nn (fun i j => (nth j l z0).[i, 0%nat]))).

  (** ** regularize_z and inverse *)

  (** domains.py 260-297; np.swapaxes of np.array([]) raises when Y has no rows *)
  Definition regularize_bounded (d : avdomain) (Y : nd R) (N : pyarg Z) : M W (nd R) :=
    dom W1 <- mlift (need (s_W1 (d_subs d)));
    dom W2 <- mlift (need (s_W2 (d_subs d)));
    dom (m, n) <- mlift (shape2 W1);
    dom Zlist <- mmap (fun i => sample_z N (row1 Y i) W1 W2) (seq 0 (nrows Y));
    match Zlist with
    | [] => merr ValueError
    | Zf :: _ =>
        mret (mk3 (List.length Zlist) (ncols Zf) (nrows Zf) (fun i j l => (nth i Zlist Zf).[l, j]))
    end.
  (** domains.py 310-340 *)
  Definition regularize_unbounded (d : avdomain) (Y : nd R) (N : Z) : M W (nd R) :=
    dom W1 <- mlift (need (s_W1 (d_subs d)));
    dom (m, n) <- mlift (shape2 W1);
    dom _ <- mlift (guard (Nat.leb n m) ValueError);
    dom N <- mlift (dimZ N);
    normal3 (nrows Y) (m - n) N.

  (** domains.py 183-219, inverse, for the regularize_z of the object *)
  Definition av_inverse_with (d : avdomain) (reg : nd R -> Z -> M W (nd R)) (Y : nd R) (N : pyarg Z) : M W (nd R * nd R) :=
    dom (Y, NY, n) <- mlift (process_inputs Y);
    match N with
    | NotA => merr TypeError
    | IsA N =>
        dom Z <- reg Y N;
        dom Wm <- mlift (need (s_eigenvecs (d_subs d)));
        mlift (rotate_x Y Z Wm)
    end.
  (** dispatch on the class of the map; 221-248: the base class raises *)
  Definition regularize_z (a : avmap) (Y : nd R) (N : Z) : M W (nd R) :=
    match av_kind a with
    | MBounded => regularize_bounded (av_domain a) Y (IsA N)
    | MUnbounded => regularize_unbounded (av_domain a) Y N
    | MBase => merr NotImplementedError
    end.
  Definition av_inverse (a : avmap) (Y : nd R) (N : pyarg Z) : M W (nd R * nd R) :=
    av_inverse_with (av_domain a) (regularize_z a) Y N.
End Domains.
