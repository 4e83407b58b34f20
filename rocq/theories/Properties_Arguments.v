(** C69: what the entry points refuse, and C53: which method compute runs. *)
From Coq Require Import String Reals Lra Lia List Arith ZArith Bool.
From Verif Require Import Prelude Py NumArr LinAlg Lsq Spectral EighRef Sorting Toy M_Misc M_SimRunners M_RespSurf M_Gradients M_Subspaces M_Quadrature M_QP M_Domains M_Designs M_ASRS M_Integrals M_Optimizers
  P_Misc P_Subspaces P_Estimators P_Partition P_Bootstrap P_SubsState P_SubsLive P_Gradients P_Quadrature Properties_Misc Properties_Subspaces Properties_SubsState Properties_QP Properties_Domains.
Import ListNotations.
Open Scope R_scope.

(** ** C53: the method named by sstype, on the data it needs *)
Theorem C53_methods : forall eigh argsort lstsq norm2 det (G : gen) (U : Type) X f df weights sstype ptype nboot
    (ws ws' : world G U (nd R) * subspaces),
  eigh_contract eigh -> argsort_contract argsort ->
  ss_compute eigh argsort lstsq norm2 det X f df weights sstype ptype nboot ws = (Ok tt, ws') ->
  exists M m e V, match X, df with Some x, _ => shape x = [M; m] | None, Some d => shape d = [M; m] | None, None => False end /\
    s_eigenvals (snd ws') = Some e /\ s_eigenvecs (snd ws') = Some V /\
    let w := match weights with None => mk2 M 1 (fun _ _ => / INR M) | Some w => w end in
    ((sstype = "AS"%string /\ exists d, df = Some d /\ active_subspace eigh argsort d w = Ok (e, V)) \/
     exists x y, X = Some x /\ f = Some y /\
       ((sstype = "OLS"%string /\ ols_subspace eigh argsort lstsq x y w = Ok (e, V)) \/
        (sstype = "QPHD"%string /\ qphd_subspace eigh argsort lstsq x y w = Ok (e, V)) \/
        (sstype = "OPG"%string /\ exists w1, opg_subspace eigh argsort lstsq x y w (fst ws) = (Ok (e, V), w1)))).
Proof.
  intros eigh argsort lstsq norm2 det G U X f df weights sstype ptype nboot ws ws' HE HA H.
  destruct (ss_compute_ok eigh argsort lstsq norm2 det HE HA _ _ _ _ _ _ _ _ _ _ H) as (M & m & e & V & w1 & br & n & A & B & k & HX & HM & _ & _ & _ & _ & _ & ES).
  exists M, m, e, V. split; [exact HX |]. rewrite ES. split; [reflexivity |]. split; [reflexivity |].
  unfold ssmethod in HM. cbv zeta.
  destruct (String.eqb_spec sstype "AS") as [-> |N1].
  { left. split; [reflexivity |]. destruct df as [d|]; [|discriminate]. exists d. split; [reflexivity |]. unfold mlift in HM. inversion HM. reflexivity. }
  right. destruct (String.eqb_spec sstype "OLS") as [-> |N2]; [|destruct (String.eqb_spec sstype "QPHD") as [-> |N3]; [|destruct (String.eqb_spec sstype "OPG") as [-> |N4]; [|discriminate]]];
    (destruct X as [x|]; [|discriminate]); (destruct f as [y|]; [|discriminate]); exists x, y; (split; [reflexivity |]); (split; [reflexivity |]).
  - left. split; [reflexivity |]. unfold mlift in HM. inversion HM. reflexivity.
  - right. left. split; [reflexivity |]. unfold mlift in HM. inversion HM. reflexivity.
  - right. right. split; [reflexivity |]. exists w1. exact HM.
Qed.
Print Assumptions C53_methods.

(** ** C69: refusals.  Each leaves the world (random state, calls made, files)
    and the object as they were. *)
Theorem C69_compute_refuses : forall eigh argsort lstsq norm2 det (G : gen) (U : Type) X f df weights sstype ptype nboot
    (ws : world G U (nd R) * subspaces),
  let run := ss_compute eigh argsort lstsq norm2 det X f df weights sstype ptype nboot ws in
  (* no data at all *)
  (X = None -> df = None -> exists msg, run = (Err (Exc msg), ws)) /\
  (* data that are not matrices *)
  (forall x, X = Some x -> rank x <> 2%nat -> run = (Err ValueError, ws)) /\
  (forall d, X = None -> df = Some d -> rank d <> 2%nat -> run = (Err ValueError, ws)) /\
  (* the method's data are missing, or there is no such method *)
  (forall M m, match X, df with Some x, _ => shape x = [M; m] | None, Some d => shape d = [M; m] | None, None => False end ->
     (sstype = "AS"%string -> df = None -> run = (Err (Exc "df is None"), ws)) /\
     (In sstype ["OLS"; "QPHD"; "OPG"]%string -> X = None \/ f = None -> run = (Err (Exc "X or f is None"), ws)) /\
     (~ In sstype ["AS"; "OLS"; "QPHD"; "OPG"]%string -> run = (Err (Exc "Unrecognized subspace type"), ws))).
Proof.
  intros eigh argsort lstsq norm2 det G U X f df weights sstype ptype nboot [w s] run. unfold run, ss_compute. split; [|split; [|split]].
  - intros -> ->. eexists. reflexivity.
  - intros x -> H. destruct (C03_process_inputs_accepts_exactly_rank_2 _ x) as [_ E]. rewrite (E H). reflexivity.
  - intros d -> -> H. destruct (C03_process_inputs_accepts_exactly_rank_2 _ d) as [_ E]. rewrite (E H). reflexivity.
  - intros M' m HX.
    assert (P : exists X' df', (match X, df with
       | Some x, _ => do (x', M, m) <- process_inputs x; Ok (Some x', df, M, m)
       | None, Some d => do (d', M, m) <- process_inputs d; Ok (None, Some d', M, m)
       | None, None => Err (Exc "One of input/output pairs (X,f) or gradients (df) must not be None")
       end) = Ok (X', df', M', m) /\ (X' = None <-> X = None) /\ (df' = None <-> df = None)).
    { destruct X as [x|]; [|destruct df as [d|]; [|contradiction]]; rewrite (process_inputs_eq _ _ _ _ HX); do 2 eexists; (split; [reflexivity |]); split; split; auto; discriminate. }
    destruct P as (X' & df' & -> & PX & PD). unfold mlift at 1, mbind at 1. unfold mbind at 1. unfold liftW at 1. unfold ssmethod.
    split; [|split].
    + intros -> ->. rewrite (proj2 PD eq_refl). reflexivity.
    + intros HI HN. assert (HN' : X' = None \/ f = None) by (destruct HN as [HN|HN]; [left; apply PX; exact HN | right; exact HN]).
      destruct HI as [<-|[<-|[<-|[]]]]; (destruct HN' as [-> | ->]; [| destruct X']); reflexivity.
    + intros HI. destruct (String.eqb_spec sstype "AS") as [-> |N1]; [exfalso; apply HI; simpl; auto |].
      destruct (String.eqb_spec sstype "OLS") as [-> |N2]; [exfalso; apply HI; simpl; auto |].
      destruct (String.eqb_spec sstype "QPHD") as [-> |N3]; [exfalso; apply HI; simpl; auto |].
      destruct (String.eqb_spec sstype "OPG") as [-> |N4]; [exfalso; apply HI; simpl; auto | reflexivity].
Qed.
Print Assumptions C69_compute_refuses.

Theorem C69_partition_refuses : forall (G : gen) (U : Type) (ws : world G U (nd R) * subspaces),
  ss_partition NotA ws = (Err TypeError, ws) /\
  (s_eigenvecs (snd ws) = None -> forall n, ss_partition (IsA n) ws = (Err AttributeError, ws)) /\
  (forall V n, s_eigenvecs (snd ws) = Some V -> (n < 1 \/ Z.of_nat (nrows V) < n)%Z -> ss_partition (IsA n) ws = (Err ValueError, ws)).
Proof.
  intros G U [w s]. split; [reflexivity |]. unfold ss_partition, mbind, getS. cbn [snd]. split.
  - intros -> n. reflexivity.
  - intros V n -> H. destruct (Z.ltb_spec n 1); [reflexivity |]. destruct (Z.ltb_spec (Z.of_nat (nrows V)) n); [reflexivity | lia].
Qed.
Print Assumptions C69_partition_refuses.

(** A domain is built from a computed Subspaces object and nothing else. *)
Theorem C69_domains : forall (G : gen) (U L : Type) ch (s : pyarg subspaces) (w : world G U L),
  (s = NotA -> unbounded_domain s = Err TypeError /\ bounded_domain ch s w = (Err TypeError, w)) /\
  (forall sb, s = IsA sb -> s_W1 sb = None -> unbounded_domain s = Err ValueError /\ bounded_domain ch s w = (Err ValueError, w)) /\
  (forall sb A m n, s = IsA sb -> s_W1 sb = Some A -> shape A = [m; n] ->
     exists d, unbounded_domain s = Ok d /\ d_kind d = DUnbounded /\ d_subs d = sb /\ d_m d = m /\ d_n d = n /\
       d_vertY d = None /\ d_vertX d = None /\ d_cons d = None) /\
  (forall sb A m, s = IsA sb -> s_W1 sb = Some A -> shape A = [m; 1%nat] ->
     exists d Y X, bounded_domain ch s w = (Ok d, w) /\ interval_endpoints A = Ok (Y, X) /\ d_kind d = DBounded /\ d_subs d = sb /\ d_m d = m /\ d_n d = 1%nat /\
       d_vertY d = Some Y /\ d_vertX d = Some X /\ d_cons d = None).
Proof.
  intros G U L ch s w. split; [intros ->; auto |]. split; [|split].
  - intros sb -> E. unfold unbounded_domain, bounded_domain. rewrite E. auto.
  - intros sb A m n -> E S. unfold unbounded_domain. rewrite E. unfold shape2. rewrite S. eexists. split; [reflexivity |]. cbn. auto 10.
  - intros sb A m -> E S. destruct (C23_interval_endpoints A m S) as (Y & X & EI & _).
    unfold bounded_domain, compute_boundary. rewrite E. unfold shape2. rewrite S. unfold mlift, mbind. cbn [d_subs]. rewrite E. cbn [need rbind]. rewrite S. cbn [Nat.eqb].
    rewrite EI. eexists _, Y, X. split; [reflexivity |]. cbn. auto 10.
Qed.
Print Assumptions C69_domains.

(** Sampling, designs, rules and integrals want integers and maps. *)
Theorem C69_sampling_refuses : forall (G : gen) (U : Type) B ch eig argsort del (w : world G U (nd R)) y W1 W2 a N NMC fn f,
  sample_z B NotA y W1 W2 w = (Err TypeError, w) /\
  (nzv NotA N = Err TypeError) /\ nzv N NotA = Err TypeError /\
  (a = NotA -> av_design B ch eig argsort a N NMC w = (Err TypeError, w) /\ quadrature_rule B ch eig argsort del a N NMC w = (Err TypeError, w) /\
     integrate B ch eig argsort del fn a N NMC w = (Err TypeError, w) /\ av_integrate B ch eig argsort del f a N w = (Err TypeError, w)) /\
  (N = NotA -> quadrature_rule B ch eig argsort del a N NMC w = (Err TypeError, w) /\
     integrate B ch eig argsort del fn a N NMC w = (Err TypeError, w) /\ av_integrate B ch eig argsort del f a N w = (Err TypeError, w) /\
     (a <> NotA -> av_design B ch eig argsort a N NMC w = (Err (Exc "N should be an integer."), w))) /\
  (NMC = NotA -> quadrature_rule B ch eig argsort del a N NMC w = (Err TypeError, w) /\ integrate B ch eig argsort del fn a N NMC w = (Err TypeError, w) /\
     (a <> NotA -> N <> NotA -> av_design B ch eig argsort a N NMC w = (Err (Exc "NMC should be an integer."), w))).
Proof.
  intros G U B ch eig argsort del w y W1 W2 a N NMC fn f. split; [reflexivity |]. split; [reflexivity |]. split; [destruct N; reflexivity |].
  split; [intros ->; auto |]. split; intros ->; destruct a; try destruct N; repeat split; auto; intros; try reflexivity; try contradiction.
Qed.
Print Assumptions C69_sampling_refuses.

(** Recurrence coefficients exist for positive N only. *)
Theorem C69_recurrences_refuse : forall N l r a b,
  (r_hermite NotA = Err TypeError /\ r_jacobi NotA l r a b = Err TypeError) /\
  ((N <= 0)%Z -> r_hermite (IsA N) = Err ValueError /\ r_jacobi (IsA N) l r a b = Err ValueError) /\
  ((0 < N)%Z -> (exists ab, r_hermite (IsA N) = Ok ab) /\ exists ab, r_jacobi (IsA N) l r a b = Ok ab).
Proof.
  intros N l r a b. split; [auto |]. unfold r_hermite, r_jacobi. split; intros H.
  - destruct (Z.leb_spec N 0); [auto | lia].
  - destruct (Z.leb_spec N 0); [lia |]. split; [|eauto]. destruct (Z.eqb_spec N 1); [eauto |].
    destruct (reshape_col (Z.to_nat N) (fun i => INR (i + 1))) as (Y & -> & SY & _). cbn [rbind]. unfold vstack. cbn [shape ones2 mk2]. rewrite SY. cbn [Nat.eqb rbind]. unfold hstack. cbn [shape zeros2 mk2 nrows ncols]. rewrite Nat.eqb_refl. eauto.
Qed.
Print Assumptions C69_recurrences_refuse.

(** The default surface is a radial basis of degree 2; a surface that has not
    been trained predicts nothing. *)
Theorem C69_surfaces : forall a r,
  (asrs_init NotA r = Err TypeError) /\
  (exists s, asrs_init (IsA a) None = Ok s /\ as_map s = a /\ as_rs s = RSRbf 2 None) /\
  (forall r0, exists s, asrs_init (IsA a) (Some r0) = Ok s /\ as_map s = a /\ as_rs s = r0) /\
  (forall s X Y g, as_map s = a -> match as_rs s with RSRbf _ st => st = None | RSPoly _ st => st = None | RSUser _ st => st = None end ->
     (exists e, predict_av s Y g = Err e) /\ (exists e, gradient_av s Y = Err e) /\ (exists e, asrs_predict s X g = Err e) /\
     (exists e, asrs_gradient s X = Err e) /\ exists e, asrs_call s X = Err e).
Proof.
  intros a r. split; [reflexivity |]. split; [eexists; split; [reflexivity | auto] |]. split; [intros r0; eexists; split; [reflexivity | auto] |].
  intros s X Y g <- H.
  assert (P : forall Y g, rs_predict (as_rs s) Y g = Err TypeError) by (intros; destruct (as_rs s); rewrite H; reflexivity).
  unfold asrs_gradient, asrs_call, gradient_av, asrs_predict, predict_av. setoid_rewrite P.
  destruct (av_forward (as_map s) X) as [[Y0 Z0]|e]; cbn [rbind]; rewrite ?P; cbn [rbind]; repeat split; eauto.
Qed.
Print Assumptions C69_surfaces.

(** A map whose domain is of neither class gets no design, rule or minimum. *)
Theorem C69_base_domain : forall (G : gen) (U : Type) B ch eig argsort del fminbound lstsq solve a m n A N NMC (w : world G U (nd R)),
  d_kind (av_domain a) = DBase -> s_W1 (d_subs (av_domain a)) = Some A -> shape A = [m; n] ->
  (av_design B ch eig argsort (IsA a) (IsA N) (IsA NMC) w = (Err (Exc "There is a problem with the avmap.domain."), w)) /\
  (av_quadrature_rule B ch eig argsort del a N w = (Err (Exc "There is a problem with the avmap.domain."), w)) /\
  (forall fn, integrate B ch eig argsort del fn (IsA a) (IsA N) (IsA NMC) w = (Err (Exc "There is a problem with the avmap.domain."), w)) /\
  (forall avfun avdfun, av_minimize B fminbound avfun (av_domain a) avdfun w = (Err (Exc "There is a problem with the avdom."), w)) /\
  (forall s X f M, as_map s = a -> shape X = [M; m] -> shape f = [M; 1%nat] ->
     opt_minimize B lstsq solve fminbound s X f w = (Err (Exc "There is a problem with the avmap.domain."), w)).
Proof.
  intros G U B ch eig argsort del fminbound lstsq solve a m n A N NMC w K E S.
  assert (Q : av_quadrature_rule B ch eig argsort del a N w = (Err (Exc "There is a problem with the avmap.domain."), w)).
  { unfold av_quadrature_rule, mbind, mlift. rewrite E. cbn [need]. unfold shape2. rewrite S, K. reflexivity. }
  split; [|split; [exact Q | split; [|split]]].
  - unfold av_design, mbind, mlift. rewrite E. cbn [need]. unfold shape2. rewrite S, K. reflexivity.
  - intros fn. unfold integrate, quadrature_rule, mbind. rewrite Q. reflexivity.
  - intros f0 d0. unfold av_minimize, mbind. rewrite K. reflexivity.
  - intros s X f M <- HX Hf. unfold opt_minimize, mbind, mlift.
    destruct (C03_process_inputs_outputs_accepts_exactly_matching _ X f) as [[P _] _].
    destruct P as (X' & f' & M' & m' & -> & _); [eauto |]. rewrite K. reflexivity.
Qed.
Print Assumptions C69_base_domain.

(** Gradient approximations. *)
Theorem C69_gradients_refuse : forall argsort lstsq (G : gen) (U : Type) X f p weights h (fn : pyarg (ufun (U := U) (nd R) (nd R))) (w : world G U (nd R)),
  (rank X <> 2%nat -> local_linear_gradients argsort lstsq X f p weights w = (Err ValueError, w) /\ finite_difference_gradients X fn h w = (Err ValueError, w)) /\
  forall M m, shape X = [M; m] ->
  (fn = NotA -> finite_difference_gradients X fn h w = (Err TypeError, w)) /\
  ((M <= m)%nat -> local_linear_gradients argsort lstsq X f p weights w = (Err (Exc "Not enough samples for local linear models."), w)) /\
  ((m < M)%nat -> p = Some NotA -> local_linear_gradients argsort lstsq X f p weights w = (Err TypeError, w)) /\
  (forall z, (m < M)%nat -> p = Some (IsA z) -> (z <= Z.of_nat m \/ Z.of_nat M < z)%Z ->
     local_linear_gradients argsort lstsq X f p weights w = (Err (Exc "p must be between m+1 and M"), w)).
Proof.
  intros argsort lstsq G U X f p weights h fn w. split.
  - intros H. destruct (C03_process_inputs_accepts_exactly_rank_2 _ X) as [_ E]. unfold local_linear_gradients, finite_difference_gradients, mbind, mlift.
    rewrite (E H). auto.
  - intros M m HX. split; [|split; [|split]].
    + intros ->. unfold finite_difference_gradients, mbind, mlift. rewrite (process_inputs_eq _ X M m HX).
      destruct (fd_points_ok X M m h HX) as (XX & -> & _). reflexivity.
    + intros H. unfold local_linear_gradients, mbind, mlift. rewrite (process_inputs_eq _ X M m HX). rewrite (proj2 (Nat.leb_le M m) H). reflexivity.
    + intros H ->. unfold local_linear_gradients, mbind, mlift. rewrite (process_inputs_eq _ X M m HX). rewrite (proj2 (Nat.leb_gt M m) H). reflexivity.
    + intros z H -> Hz. unfold local_linear_gradients, mbind, mlift. rewrite (process_inputs_eq _ X M m HX). rewrite (proj2 (Nat.leb_gt M m) H). cbn [ll_p].
      destruct (Z.ltb_spec z (Z.of_nat m + 1)); [reflexivity |]. destruct (Z.ltb_spec (Z.of_nat M) z); [reflexivity | lia].
Qed.
Print Assumptions C69_gradients_refuse.

(** The maps of the minimiser give one point per row and nothing else. *)
Theorem C69_minimiser_maps_refuse : forall (G : gen) (U L : Type) B solve d v Y N (w : world G U L), N <> 1%Z ->
  bmvm_regularize B d v Y N w = (Err (Exc "MinVariableMap needs N=1."), w) /\ umvm_regularize solve d v Y N w = (Err (Exc "MinVariableMap needs N=1."), w).
Proof. intros G U L B solve d v Y N w H. unfold bmvm_regularize, umvm_regularize. destruct (Z.eqb_spec N 1); [contradiction | auto]. Qed.
Print Assumptions C69_minimiser_maps_refuse.

(** A data matrix without gradients is refused by the gradient method, and a
    vector by every method, with nothing drawn and nothing stored. *)
Example C69_case : forall ws : world toy_gen unit (nd R) * subspaces,
  ss_compute eigh_ref argsort_ref lstsq_ref norm2_ref det_ref (Some (mat_of [[1; 2]; [3; 4]])) (Some (mat_of [[1]; [2]])) None None "AS" "EVG" 0 ws = (Err (Exc "df is None"), ws) /\
  ss_compute eigh_ref argsort_ref lstsq_ref norm2_ref det_ref (Some (vec_of [1; 2])) None None None "OLS" "EVG" 0 ws = (Err ValueError, ws) /\
  exists d, unbounded_domain (IsA sub3) = Ok d /\ d_m d = 3%nat /\ d_n d = 1%nat.
Proof.
  intros ws. split; [|split].
  - destruct (C69_compute_refuses eigh_ref argsort_ref lstsq_ref norm2_ref det_ref toy_gen unit (Some (mat_of [[1; 2]; [3; 4]])) (Some (mat_of [[1]; [2]])) None None "AS" "EVG" 0 ws) as (_ & _ & _ & H).
    destruct (H 2%nat 2%nat eq_refl) as (H1 & _). apply H1; reflexivity.
  - destruct (C69_compute_refuses eigh_ref argsort_ref lstsq_ref norm2_ref det_ref toy_gen unit (Some (vec_of [1; 2])) None None None "OLS" "EVG" 0 ws) as (_ & H & _).
    apply (H (vec_of [1; 2])); [reflexivity | cbn; lia].
  - destruct (C69_domains toy_gen unit unit (fun _ => Err ValueError) (IsA sub3) (toy_world tt)) as (_ & _ & H & _).
    destruct (H sub3 W31 3%nat 1%nat eq_refl eq_refl eq_refl) as (d & E & _ & _ & E1 & E2 & _). exists d. auto.
Qed.
