(** Model of the repository's own unit tests tests/test_subspaces.py and tests/test_domains.py. *)
From Coq Require Import String Reals Lra Lia List Arith ZArith Bool.
From Verif Require Import Prelude Py NumArr M_Misc M_SimRunners M_Gradients M_QP M_RespSurf M_Subspaces M_Domains M_Tests.
Import ListNotations.
Open Scope R_scope.

(** numpy.testing.assert_array_less(X, Y): X < Y *)
Definition assert_array_less (X Y : nd R) : res unit := compare rltb X Y.
(** numpy.testing.assert_equal(X, Y) *)
Definition assert_equal (X Y : nd R) : res unit := compare (fun x y => if Req_EM_T x y then true else false) X Y.
(** np.floor *)
Definition floorR (x : R) : R := IZR (Int_part x).
(** np.any(X == X0[k]) for columns X, X0 *)
Definition any_is (X X0 : nd R) (k : nat) : bool := existsb (fun i => if Req_EM_T (X.[i, 0%nat]) (X0.[k, 0%nat]) then true else false) (seq 0 (nrows X)).
(** np.ones((M,1)) / M *)
Definition equal_weights (M : nat) : nd R := mk2 M 1 (fun _ _ => / INR M).

Section Tests.
  Context {G : gen} {U : Type}.
  Notation W := (world G U (nd R)).
  Notation test := (M W unit).
  Variable eigh : nd R -> res (nd R * nd R).
  Variable argsort : list R -> list nat.
  Variable lstsq : nd R -> nd R -> res (nd R).
  Variable norm2 : nd R -> R.
  Variable det : nd R -> R.
  Variable B : backend.
  Variable convex_hull : nd R -> res (nd R).

  (** ** tests/test_subspaces.py *)

  (** np.testing.assert_array_less(e[1], e[0]): rows of the column of eigenvalues *)
  Definition second_below_first (e : nd R) : res unit := assert_array_less (row1 e 1) (row1 e 0).

  (** lines 8-13 *)
  Definition test_sorted_eigh : test :=
    dom _ <- seed 42;
    dom X <- normal2 3 3;
    dom C <- mlift (mdot (tr X) X);
    dom (e, V) <- mlift (sorted_eigh eigh argsort C);
    mlift (second_below_first e).
  (** lines 15-20 *)
  Definition test_active_subspace : test :=
    dom _ <- seed 42;
    dom df <- normal2 10 3;
    dom (e, V) <- mlift (active_subspace eigh argsort df (equal_weights 10));
    mlift (second_below_first e).
  (** lines 22-28 *)
  Definition test_ols_subspace : test :=
    dom _ <- seed 42;
    dom X <- normal2 20 3; dom f <- normal2 20 1;
    dom (e, V) <- mlift (ols_subspace eigh argsort lstsq X f (equal_weights 20));
    mlift (second_below_first e).
  (** lines 30-36 *)
  Definition test_qphd_subspace : test :=
    dom _ <- seed 42;
    dom X <- normal2 50 3; dom f <- normal2 50 1;
    dom (e, V) <- mlift (qphd_subspace eigh argsort lstsq X f (equal_weights 50));
    mlift (second_below_first e).
  (** lines 38-44 *)
  Definition test_opg_subspace : test :=
    dom _ <- seed 42;
    dom X <- normal2 50 3; dom f <- normal2 50 1;
    dom (e, V) <- opg_subspace eigh argsort lstsq X f (equal_weights 50);
    mlift (second_below_first e).
  (** lines 46-54; w0[0] and f0[1] are rows of columns *)
  Definition test_bootstrap_replicate : test :=
    dom _ <- seed 42;
    dom X <- normal2 10 3; dom f <- normal2 10 1; dom df <- normal2 10 3;
    let weights := equal_weights 10 in
    dom (X0, f0, df0, w0) <- bootstrap_replicate (Some X) (Some f) (Some df) weights;
    dom _ <- mlift (guard (Nat.ltb 0 (nrows w0)) IndexError);
    dom _ <- mlift (assert_ (any_is weights w0 0));
    dom f0 <- mlift (match f0 with Some f0 => Ok f0 | None => Err TypeError end);
    dom _ <- mlift (guard (Nat.ltb 1 (nrows f0)) IndexError);
    mlift (assert_ (any_is f f0 1)).

  (** the four ssmethods: lambda X, f, df, weights: ... *)
  Notation method := (option (nd R) -> option (nd R) -> option (nd R) -> nd R -> M W (nd R * nd R)).
  Definition given {A} (x : option A) : M W A := match x with Some a => mret a | None => merr AttributeError end.   (* None.shape *)
  Definition by_gradients : method := fun X f df weights => dom df <- given df; mlift (active_subspace eigh argsort df weights).
  Definition by_ols : method := fun X f df weights => dom X <- given X; dom f <- given f; mlift (ols_subspace eigh argsort lstsq X f weights).
  Definition by_qphd : method := fun X f df weights => dom X <- given X; dom f <- given f; mlift (qphd_subspace eigh argsort lstsq X f weights).
  Definition by_opg : method := fun X f df weights => dom X <- given X; dom f <- given f; opg_subspace eigh argsort lstsq X f weights.

  (** lines 56-77; ten replicates each *)
  Definition test_bootstrap_ranges_of (steps : list (method * bool)) (X f df weights : nd R) : test :=
    dom _ <- mmap (fun s : method * bool =>
      let (ssmethod, grads) := s in
      dom (e, V) <- ssmethod (Some X) (Some f) (Some df) weights;
      dom _ <- (if grads : bool then bootstrap_ranges norm2 det e V None None (Some df) weights ssmethod 10
                else bootstrap_ranges norm2 det e V (Some X) (Some f) None weights ssmethod 10);
      mret tt) steps;
    mret tt.
  Definition test_bootstrap_ranges : test :=
    dom _ <- seed 42;
    dom X <- normal2 50 3; dom f <- normal2 50 1; dom df <- normal2 50 3;
    test_bootstrap_ranges_of [(by_gradients, true); (by_ols, false); (by_qphd, false); (by_opg, false)] X f df (equal_weights 50).

  (** lines 79-84 *)
  Definition test_eig_partition : test :=
    dom _ <- seed 42;
    dom df <- normal2 10 3;
    dom (e, V) <- mlift (active_subspace eigh argsort df (equal_weights 10));
    dom _ <- mlift (eig_partition e); mret tt.
  (** lines 86-94 *)
  Definition test_errbnd_partition : test :=
    dom _ <- seed 42;
    dom df <- normal2 10 3;
    dom (e, V) <- mlift (active_subspace eigh argsort df (equal_weights 10));
    dom (e_br, sub_br, li_F) <- bootstrap_ranges norm2 det e V None None (Some df) (equal_weights 10) by_gradients 10;
    dom sub_err <- mlift (reshape [2; 1]%nat (mk1 (nrows sub_br) (fun i => sub_br.[i, 1%nat])));
    dom _ <- mlift (errbnd_partition e sub_err); mret tt.
  (** lines 96-103 *)
  Definition test_ladle_partition : test :=
    dom _ <- seed 42;
    dom df <- normal2 10 3;
    dom (e, V) <- mlift (active_subspace eigh argsort df (equal_weights 10));
    dom (e_br, sub_br, li_F) <- bootstrap_ranges norm2 det e V None None (Some df) (equal_weights 10) by_gradients 10;
    dom _ <- mlift (ladle_partition e li_F); mret tt.

  (** sub = ss.Subspaces(); then calls on it; the object afterwards is the result *)
  Definition on_new (calls : M (W * subspaces) unit) : M W subspaces :=
    fun w => match calls (w, subs_new) with (Ok _, (w', s)) => (Ok s, w') | (Err e, (w', _)) => (Err e, w') end.
  Notation compute := (ss_compute eigh argsort lstsq norm2 det).

  (** lines 105-126: the calls in turn *)
  Definition class_calls : list (string * string * Z) :=
    [("AS", "EVG", 0); ("AS", "EVG", 0); ("OLS", "EVG", 0); ("QPHD", "EVG", 0); ("OPG", "EVG", 0);
     ("AS", "EVG", 10); ("OLS", "EVG", 10); ("QPHD", "EVG", 10); ("OPG", "EVG", 10);
     ("AS", "EVG", 100); ("AS", "RS", 100); ("AS", "LI", 100)]%string%Z.
  Definition test_subspace_class : test :=
    dom _ <- seed 42;
    dom X <- normal2 50 3; dom f <- normal2 50 1; dom df <- normal2 50 3;
    dom _ <- on_new (dom _ <- mmap (fun c : string * string * Z => let '(sstype, ptype, nboot) := c in
               compute (Some X) (Some f) (Some df) (Some (equal_weights 50)) sstype ptype nboot) class_calls; mret tt);
    mret tt.

  (** ** tests/test_domains.py *)

  (** the first lines of every test: seed, ten gradients, sub.compute(df=df) *)
  Definition a_subspace : M W subspaces :=
    dom _ <- seed 42;
    dom df <- normal2 10 3;
    on_new (compute None None (Some df) None "AS" "EVG" 0).
  (** sub.W1, sub.W2 and W1.shape *)
  Definition bases (sub : subspaces) : M W (nd R * nd R * nat * nat) :=
    dom W1 <- mlift (need (s_W1 sub)); dom W2 <- mlift (need (s_W2 sub)); dom (m, n) <- mlift (shape2 W1); mret (W1, W2, m, n).

  (** lines 10-16 *)
  Definition test_unbounded_active_variable_domain : test :=
    dom sub <- a_subspace; dom uavd <- mlift (unbounded_domain (IsA sub)); mret tt.
  (** lines 18-25 and 27-34 *)
  Definition test_bounded_active_variable_domain : test :=
    dom sub <- a_subspace; dom bavd <- bounded_domain convex_hull (IsA sub); mret tt.

  (** np.dot(Y, sub.W1.T) + np.dot(Z, sub.W2.T) against X *)
  Definition rebuilds (a : avmap) (X W1 W2 : nd R) : test :=
    dom (Y, Z) <- mlift (av_forward a X);
    dom P <- mlift (npdot Y (tr W1)); dom Q <- mlift (npdot Z (tr W2));
    dom X0 <- mlift (bcast2 Rplus P Q);
    mlift (assert_almost_equal 7 X0 X).
  (** X0 = inverse(Y, N=10)[0]; np.dot(X0, sub.W1) against np.kron(Y, np.ones((10,1))) *)
  Definition inverts (a : avmap) (X W1 : nd R) : M W (nd R) :=
    dom (Y, Z) <- mlift (av_forward a X);
    dom (X0, ind) <- av_inverse B a Y (IsA 10%Z);
    dom P <- mlift (npdot X0 W1);
    dom _ <- mlift (assert_almost_equal 7 P (kron Y (ones2 10 1)));
    mret X0.

  (** lines 36-50 and 52-66 *)
  Definition test_unbounded_active_variable_map_0 : test :=
    dom sub <- a_subspace; dom (W1, W2, m, n) <- bases sub;
    dom uavd <- mlift (unbounded_domain (IsA sub));
    dom X <- normal2 100 m;
    rebuilds (AVM MUnbounded uavd) X W1 W2.
  (** lines 68-82 and 84-98 *)
  Definition test_unbounded_active_variable_map_2 : test :=
    dom sub <- a_subspace; dom (W1, W2, m, n) <- bases sub;
    dom uavd <- mlift (unbounded_domain (IsA sub));
    dom X <- normal2 100 m;
    dom _ <- inverts (AVM MUnbounded uavd) X W1; mret tt.
  (** lines 100-114 and 116-130 *)
  Definition test_bounded_active_variable_map_0 : test :=
    dom sub <- a_subspace; dom (W1, W2, m, n) <- bases sub;
    dom bavd <- bounded_domain convex_hull (IsA sub);
    dom X <- uniform2 (-1) 1 100 m;
    rebuilds (AVM MBounded bavd) X W1 W2.
  (** lines 132-147 and 149-164 *)
  Definition test_bounded_active_variable_map_2 : test :=
    dom sub <- a_subspace; dom (W1, W2, m, n) <- bases sub;
    dom bavd <- bounded_domain convex_hull (IsA sub);
    dom X <- uniform2 (-1) 1 10 m;
    dom X0 <- inverts (AVM MBounded bavd) X W1;
    mlift (assert_equal (amap (fun x => floorR (Rabs x)) X0) (zeros2 (nrows X0) (ncols X0))).

  (** lines 166-180, 184-198, 200-214 and 217-231: N = 10 points over the active variables of
      a random point of the cube; the sampler is called after np.random.seed(42) *)
  Definition over_a_point {A} (sampler : Z -> nd R -> nd R -> nd R -> M W A) : test :=
    dom sub <- a_subspace; dom (W1, W2, m, n) <- bases sub;
    dom _ <- seed 43;
    dom x <- uniform2 (-1) 1 1 m;
    dom P <- mlift (npdot x W1);
    dom y <- mlift (reshape [n] P);
    dom _ <- seed 42;
    dom _ <- sampler 10%Z y W1 W2; mret tt.
  Definition test_rejection_sample_z : test := over_a_point (rejection_sampling_z B).
  Definition test_hit_and_run_z : test := over_a_point (hit_and_run_z B).
  Definition test_random_walk_z : test := over_a_point (random_walk_z B).
  Definition test_sample_z : test := over_a_point (fun N => sample_z B (IsA N)).
End Tests.
