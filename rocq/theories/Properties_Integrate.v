(** Final theorems for integrals.py: C43 (integrate) and C46 (exactness) *)
From Coq Require Import String Reals Lra Lia List Arith ZArith Bool.
From Verif Require Import Prelude Py NumArr Toy GaussRules M_Misc M_SimRunners M_RespSurf M_Gradients M_Subspaces M_Quadrature M_QP M_Domains M_Designs M_ASRS M_Integrals
  EighRef Tridiag Sorting P_Tensor P_Misc P_Bootstrap P_SimRunners P_DomSample P_Quadrature P_Domains P_CondExp P_Quiet P_Inverse P_Integrals P_Integrate
  Properties_Misc Properties_Quadrature Properties_QP Properties_Domains Properties_Designs Properties_Integrals.
Import ListNotations.
Open Scope R_scope.

(** ** C43 *)

(** what is left once the rule is known and the simulation has run *)
Lemma integrate_run : forall (G : gen) (U : Type) B ch eig argsort del (fn : ufun (U := U) (nd R) (nd R)) a N (w w2 w3 : world G U (nd R)) W1 Yp Yw Xp Xw ind m n q K F,
  quadrature_rule B ch eig argsort del (IsA a) (IsA N) (IsA (Z.of_nat K)) w = (Ok (Xp, Xw, ind), w2) -> rule_ok a W1 Yp Yw Xp Xw ind m n q K -> (0 < K)%nat -> (0 < q)%nat ->
  sim_run fn Xp w2 = (Ok F, w3) -> shape F = [(q * K)%nat; 1%nat] ->
  let mu := sumf (q * K) (fun r => Xw.[r, 0%nat] * F.[r, 0%nat]) in
  let v := sumf q (fun i => Yw.[i, 0%nat] * Yw.[i, 0%nat] * gvar (fun r => F.[r, 0%nat]) K i) in
  let h := 196 / 100 * sqrt (v / INR K) in
  integrate B ch eig argsort del (IsA fn) (IsA a) (IsA N) (IsA (Z.of_nat K)) w = (Ok (mu, mu - h, mu + h), w3).
Proof.
  intros G U B ch eig argsort del fn a N w w2 w3 W1 Yp Yw Xp Xw ind m n q K F ER RU HK HQ EF SF mu v h.
  destruct (mc_estimate a W1 Yp Yw Xp Xw ind m n q K F RU SF HK HQ) as (Ef & Vf & wt & V2 & mu' & s' & E1 & E2 & E3 & E4 & E5 & E6).
  unfold integrate. unfold mbind at 1. rewrite ER. unfold mbind at 1, mlift at 1. unfold mbind at 1, mlift at 1. cbn [SimulationRunner_init]. unfold mbind at 1. rewrite EF.
  unfold mbind at 1, mlift at 1. rewrite E1. unfold mbind at 1, mlift at 1. rewrite E2. unfold mbind at 1, mlift at 1. rewrite E3. unfold mbind at 1, mlift at 1. rewrite E4.
  unfold mret. rewrite E5, E6, <- INR_IZR_INZ. reflexivity.
Qed.

Theorem C43_integrate : forall (G : gen) (U : Type) B ch eig argsort del (fn : ufun (U := U) (nd R) (nd R)) a N NMC m n Wm W1 W2 (w w' : world G U (nd R)) mu lb ub,
  frame (d_subs (av_domain a)) m n Wm W1 W2 -> invertible B a ->
  integrate B ch eig argsort del (IsA fn) (IsA a) (IsA N) (IsA NMC) w = (Ok (mu, lb, ub), w') ->
  exists Yp Yw w1 Xp Xw ind w2 q K (f : nat -> R) (us : nat -> U),
    av_quadrature_rule B ch eig argsort del a N w = (Ok (Yp, Yw), w1) /\ quadrature_rule B ch eig argsort del (IsA a) (IsA N) (IsA NMC) w = (Ok (Xp, Xw, ind), w2) /\
    NMC = Z.of_nat K /\ (0 < K)%nat /\ (0 < q)%nat /\ shape Yp = [q; n] /\ shape Yw = [q; 1%nat] /\ shape Xp = [(q * K)%nat; m] /\ shape Xw = [(q * K)%nat; 1%nat] /\
    (* K points over every node, sharing its weight *)
    (forall i l, (i < q)%nat -> (l < K)%nat -> maps_to W1 Yp m n i (fun c => Xp.[(i * K + l)%nat, c]) /\ Xw.[(i * K + l)%nat, 0%nat] = Yw.[i, 0%nat] / INR K) /\
    (* the simulation is called once per point, in order *)
    us 0%nat = usr w /\ (forall r, (r < q * K)%nat -> exists v, fn (rowarr Xp r) (us r) = (Ok v, us (S r)) /\ size v = 1%nat /\ f r = flat v 0) /\
    w' = World (rng w2) (us (q * K)%nat) (calls w ++ map (rowarr Xp) (seq 0 (q * K))) (files w) /\
    (* the estimate and its bounds *)
    mu = sumf (q * K) (fun r => Xw.[r, 0%nat] * f r) /\
    (let mean i := sumf K (fun l => f (i * K + l)%nat) / INR K in
     let var i := sumf K (fun l => (f (i * K + l)%nat - mean i) * (f (i * K + l)%nat - mean i)) / INR K in
     let h := 196 / 100 * sqrt (sumf q (fun i => Yw.[i, 0%nat] * Yw.[i, 0%nat] * var i) / INR K) in
     lb = mu - h /\ ub = mu + h /\ 0 <= h) /\
    (lb = ub <-> forall i, (i < q)%nat -> Yw.[i, 0%nat] <> 0 -> forall l l', (l < K)%nat -> (l' < K)%nat -> f (i * K + l)%nat = f (i * K + l')%nat).
Proof.
  intros G U B ch eig argsort del fn a N NMC m n Wm W1 W2 w w' mu lb ub F HI H. assert (H0 := H). unfold integrate in H.
  apply mbind_ok in H. destruct H as ([[Xp Xw] ind] & w2 & ER & H). destruct (rule_returns _ _ _ _ _ _ _ _ _ _ _ _ _ _ _ _ _ _ _ _ F HI ER) as (Yp & Yw & w1 & q & K & EA & -> & RU).
  assert (QD := quiet_rule _ _ _ _ _ _ _ _ _ _ _ _ _ ER). destruct QD as (QU & QC & QF).
  apply mbind_ok in H. destruct H as (NMC' & w3 & E & H). apply mlift_inv in E. destruct E as [E ->]. injection E as <-.
  apply mbind_ok in H. destruct H as (fn' & w3 & E & H). apply mlift_inv in E. destruct E as [E ->]. injection E as <-.
  apply mbind_ok in H. destruct H as (FF & w3 & EF & H).
  destruct (C05_run_calls_rows_in_order G U fn Xp _ _ w2 (ru_Xp _ _ _ _ _ _ _ _ _ _ _ RU)) as (us & U0 & [(F' & w4 & EF' & SF & EW & VF)|(k & e & w4 & _ & EF' & _)]); rewrite EF in EF'; [|discriminate].
  injection EF' as <- <-.
  apply mbind_ok in H. destruct H as ([E V] & w4 & EC & H). apply mlift_inv in EC. destruct EC as [EC ->].
  assert (HP : (0 < K)%nat /\ (0 < q)%nat).
  { destruct (Nat.eq_dec (q * K) 0) as [Z0|Z0]; [|nia]. exfalso.
    unfold cond_exp in EC. rewrite (nrows_shape2 _ FF _ _ SF), (nrows_shape2 _ ind _ _ (ru_ind _ _ _ _ _ _ _ _ _ _ _ RU)), Z0 in EC. discriminate. }
  destruct HP as [HK HQ]. clear H. assert (R := integrate_run G U B ch eig argsort del fn a N w w2 w3 W1 Yp Yw Xp Xw ind m n q K FF ER RU HK HQ EF SF). cbv zeta in R.
  rewrite H0 in R. injection R as Emu Elb Eub Ew. destruct RU as [SYp SYw SXp SXw SI VM VW VI]. assert (PK : 0 < INR K) by (apply lt_0_INR; lia).
  set (f := fun r => FF.[r, 0%nat]) in *. set (v := sumf q (fun i => Yw.[i, 0%nat] * Yw.[i, 0%nat] * gvar f K i)) in *.
  assert (T0 : forall i, (i < q)%nat -> 0 <= Yw.[i, 0%nat] * Yw.[i, 0%nat] * gvar f K i).
  { intros i Hi. apply Rmult_le_pos; [|now apply gvar_nonneg]. assert (Q := Rle_0_sqr (Yw.[i, 0%nat])). exact Q. }
  assert (V0 : 0 <= v) by (apply sumf_nonneg; exact T0).
  exists Yp, Yw, w1, Xp, Xw, ind, w2, q, K, f, us. do 9 (split; [solve [auto | congruence]|]). split; [split; auto|]. split; [congruence|]. split; [auto|].
  split; [rewrite Ew, EW; congruence|]. split; [exact Emu|]. split.
  - intros mean var h. assert (Eh : h = 196 / 100 * sqrt (v / INR K)) by reflexivity. clearbody h. rewrite Eh.
    rewrite Elb, Eub, Emu. split; auto. split; auto. assert (Q := sqrt_pos (v / INR K)). lra.
  - assert (EQ : lb = ub <-> v = 0).
    { rewrite Elb, Eub. split.
      - intros E0. assert (S0 : sqrt (v / INR K) = 0) by lra. apply sqrt_eq_0 in S0; [|apply Rmult_le_pos; [auto|left; now apply Rinv_0_lt_compat]].
        apply Rmult_eq_reg_r with (/ INR K); [|apply Rinv_neq_0_compat; lra]. rewrite Rmult_0_l. exact S0.
      - intros ->. unfold Rdiv. rewrite (Rmult_0_l (/ INR K)), sqrt_0. ring. }
    rewrite EQ. unfold v. split.
    + intros E0 i Hi Ny. assert (Z := sumf_nonneg_eq0 _ _ T0 E0 i Hi). cbv beta in Z. apply gvar_zero; auto. apply Rmult_integral in Z. destruct Z as [Z|Z]; auto. apply Rmult_integral in Z. tauto.
    + intros HC. apply sumf_zero. intros i Hi. destruct (Req_dec (Yw.[i, 0%nat]) 0) as [->|Ny]; [ring|]. rewrite (proj2 (gvar_zero f K i HK)); [ring|]. apply HC; auto.
Qed.
Print Assumptions C43_integrate.

(** a simulation without state that never raises *)
Definition pure {U : Type} (h : nd R -> R) : ufun (U := U) (nd R) (nd R) := fun x u => (Ok (ND [] (fun _ => h x)), u).

Lemma sim_run_pure : forall (G : gen) (U : Type) h Xp M m (w : world G U (nd R)), shape Xp = [M; m] ->
  exists F w', sim_run (pure h) Xp w = (Ok F, w') /\ shape F = [M; 1%nat] /\ forall r, (r < M)%nat -> F.[r, 0%nat] = h (rowarr Xp r).
Proof.
  intros G U h Xp M m w SX. destruct (C05_run_calls_rows_in_order G U (pure h) Xp M m w SX) as (us & U0 & [(F & w4 & EF & SF & EW & VF)|(k & e & w4 & _ & _ & _ & _ & [C|(v & C & SV & _)])]).
  - exists F, w4. split; auto. split; auto. intros r Hr. destruct (VF r Hr) as (v & E & _ & ->). injection E as <- _. reflexivity.
  - discriminate.
  - injection C as <- _. elim SV. reflexivity.
Qed.

(** The rule does not depend on the simulation; what integrate makes of it is
    linear, reproduces constants up to the total weight, and is monotone if no
    weight is negative. *)
Theorem C43_linear_monotone : forall (G : gen) (U : Type) B ch eig argsort del a N NMC m n Wm W1 W2 (w w2 : world G U (nd R)) Xp Xw ind,
  frame (d_subs (av_domain a)) m n Wm W1 W2 -> invertible B a ->
  quadrature_rule B ch eig argsort del (IsA a) (IsA N) (IsA NMC) w = (Ok (Xp, Xw, ind), w2) -> (1 <= nrows Xp)%nat ->
  exists I : (nd R -> R) -> R, (forall h, exists lb ub w', integrate B ch eig argsort del (IsA (pure h)) (IsA a) (IsA N) (IsA NMC) w = (Ok (I h, lb, ub), w')) /\
    (forall al be h g, I (fun x => al * h x + be * g x) = al * I h + be * I g) /\
  exists Yp Yw w1 q, av_quadrature_rule B ch eig argsort del a N w = (Ok (Yp, Yw), w1) /\ shape Yw = [q; 1%nat] /\
    (forall c, I (fun _ => c) = c * sumf q (fun i => Yw.[i, 0%nat])) /\
    ((forall i, (i < q)%nat -> 0 <= Yw.[i, 0%nat]) -> forall h g, (forall x, shape x = [1%nat; m] -> h x <= g x) -> I h <= I g).
Proof.
  intros G U B ch eig argsort del a N NMC m n Wm W1 W2 w w2 Xp Xw ind F HI ER HN.
  destruct (rule_returns _ _ _ _ _ _ _ _ _ _ _ _ _ _ _ _ _ _ _ _ F HI ER) as (Yp & Yw & w1 & q & K & EA & -> & RU).
  assert (RU' := RU). destruct RU' as [SYp SYw SXp SXw SI VM VW VI]. rewrite (nrows_shape2 _ Xp _ _ SXp) in HN. assert (HK : (0 < K)%nat) by nia. assert (HQ : (0 < q)%nat) by nia.
  assert (PK : 0 < INR K) by (apply lt_0_INR; lia).
  exists (fun h => sumf (q * K) (fun r => Xw.[r, 0%nat] * h (rowarr Xp r))). split; [|split].
  - intros h. destruct (sim_run_pure G U h Xp _ _ w2 SXp) as (FF & w3 & EF & SF & VF).
    assert (R := integrate_run G U B ch eig argsort del (pure h) a N w w2 w3 W1 Yp Yw Xp Xw ind m n q K FF ER RU HK HQ EF SF). cbv zeta in R.
    rewrite (sumf_ext (q * K) (fun r => Xw.[r, 0%nat] * FF.[r, 0%nat]) (fun r => Xw.[r, 0%nat] * h (rowarr Xp r))) in R by (intros r Hr; now rewrite VF). eauto.
  - intros al be h g. rewrite <- !sumf_scal_l, <- sumf_plus. apply sumf_ext. intros; ring.
  - exists Yp, Yw, w1, q. split; auto. split; auto. split.
    + intros c. rewrite sumf_prod, <- sumf_scal_l. apply sumf_ext. intros i Hi. rewrite (sumf_ext K _ (fun _ => Yw.[i, 0%nat] / INR K * c)) by (intros l Hl; now rewrite VW). rewrite sumf_const. field. lra.
    + intros HW h g HH. apply sumf_le. intros r Hr. apply Rmult_le_compat_l.
      * rewrite (Nat.div_mod r K) by lia. rewrite (Nat.mul_comm K). rewrite VW; [|apply Nat.div_lt_upper_bound; lia|apply Nat.mod_upper_bound; lia].
        apply Rmult_le_pos; [apply HW; apply Nat.div_lt_upper_bound; lia|left; now apply Rinv_0_lt_compat].
      * apply HH. unfold rowarr. cbn [shape mk2]. now rewrite (ncols_shape2 _ _ _ _ SXp).
Qed.
Print Assumptions C43_linear_monotone.

(** wrong types *)
Theorem C43_raises : forall (G : gen) (U : Type) B ch eig argsort del (fn : pyarg (ufun (U := U) (nd R) (nd R))) a N NMC (w : world G U (nd R)),
  a = NotA \/ N = NotA \/ NMC = NotA -> integrate B ch eig argsort del fn a N NMC w = (Err TypeError, w).
Proof. intros G U B ch eig argsort del fn a N NMC w H. destruct a, N, NMC; destruct H as [H|[H|H]]; try discriminate; reflexivity. Qed.
Print Assumptions C43_raises.

Lemma number_le : forall n k P, number n k P -> (k <= n)%nat.
Proof.
  intros n k P (l & ND & <- & H). rewrite <- (seq_length n 0). apply NoDup_incl_length; auto. intros s Hs. apply H in Hs. apply in_seq. lia.
Qed.
Lemma ten_thousand : exists NX, 10000%Z = Z.of_nat NX /\ (1 <= NX)%nat.
Proof. destruct (Z_of_nat_complete 10000 ltac:(lia)) as (NX & E). exists NX. split; auto. lia. Qed.

(** No weight is negative; they add up to 1 on an unbounded domain and on an
    interval, to at most 1 on a zonotope. *)
Theorem C43_weights : forall (G : gen) (U : Type) B ch eig argsort del a N m n Wm W1 W2 (w w1 : world G U (nd R)) Yp Yw q,
  frame (d_subs (av_domain a)) m n Wm W1 W2 -> (1 <= n)%nat -> (1 <= N)%Z ->
  (d_kind (av_domain a) = DUnbounded /\ eig_contract eig /\ eig_total eig /\ argsort_contract argsort) \/
  (d_kind (av_domain a) = DBounded /\ n = 1%nat /\ exists vY vX, interval_endpoints W1 = Ok (vY, vX) /\ d_vertY (av_domain a) = Some vY) \/
  (d_kind (av_domain a) = DBounded /\ n <> 1%nat /\ delaunay_ok del /\ exists vY NV, d_vertY (av_domain a) = Some vY /\ shape vY = [NV; n]) ->
  av_quadrature_rule B ch eig argsort del a N w = (Ok (Yp, Yw), w1) -> shape Yw = [q; 1%nat] ->
  (forall i, (i < q)%nat -> 0 <= Yw.[i, 0%nat]) /\ sumf q (fun i => Yw.[i, 0%nat]) <= 1 /\
  (d_kind (av_domain a) = DUnbounded \/ n = 1%nat -> sumf q (fun i => Yw.[i, 0%nat]) = 1).
Proof.
  intros G U B ch eig argsort del a N m n Wm W1 W2 w w1 Yp Yw q F Hn HN HC H SQ. assert (SW := fr_s1 _ _ _ _ _ _ F). assert (EW := fr_1 _ _ _ _ _ _ F).
  unfold av_quadrature_rule in H. cbv zeta in H. rewrite EW in H.
  apply mbind_ok in H. destruct H as (W1' & w2 & E & H). apply mlift_inv in E. destruct E as [E ->]. injection E as <-.
  apply mbind_ok in H. destruct H as ([m' n'] & w2 & E & H). apply mlift_inv in E. destruct E as [E ->]. unfold shape2 in E. rewrite SW in E. injection E as <- <-.
  destruct HC as [(DK & HE & HT & HA)|[(DK & -> & vY & vX & EE & EV)|(DK & Nn & HD & vY & NV & EV & SV)]]; rewrite DK in H |- *.
  - apply mlift_inv in H. destruct H as [H ->]. destruct (iroot_pos N n HN Hn) as (p & Ep & Hp). rewrite (roots_repeat _ _ _ Ep) in H. cbn [rbind] in H.
    destruct (C31_gauss_hermite_tensor eig argsort (repeat p n) HE HT HA ltac:(apply Forall_forall; intros z Hz; apply repeat_spec in Hz; lia)) as (x & wt & E & _ & SWt & _ & _ & PW & S1 & _).
    rewrite E in H. injection H as <- <-. rewrite SQ in SWt. injection SWt as ->. split; [intros i Hi; left; auto|]. split; [right; exact S1|intros _; exact S1].
  - rewrite Nat.eqb_refl in H. destruct ten_thousand as (NX & EX & HX). rewrite EX in H.
    destruct (C44_interval_rule G U (av_domain a) m W1 vY vX (Z.to_nat N) NX w EW SW EE EV ltac:(lia) HX) as (P & Q & ER & _ & SQ' & _ & _ & _ & _ & _ & NN & S1).
    rewrite Z2Nat.id in ER by lia. rewrite H in ER. injection ER as <- <- _. rewrite SQ in SQ'. injection SQ' as ->. split; [exact NN|]. split; [right; exact S1|intros _; exact S1].
  - rewrite (proj2 (Nat.eqb_neq n 1) Nn) in H. destruct ten_thousand as (NX & EX & HX). rewrite EX in H.
    destruct (C45_zonotope_rule G U B ch del (av_domain a) m n W1 vY NV N NX w w1 Yp Yw HD EW SW EV SV H) as (D & K & y & tri & loc & _ & _ & _ & _ & _ & _ & _ & T). cbv zeta in T.
    destruct T as (_ & SQ' & _ & _ & TW & (c & Nc & TS) & _). rewrite SQ in SQ'. injection SQ' as ->. assert (PX : 0 < INR NX) by (apply lt_0_INR; lia). split; [|split].
    + intros i Hi. destruct (TW i Hi) as (k & _ & ->). apply Rmult_le_pos; [apply pos_INR|left; now apply Rinv_0_lt_compat].
    + rewrite TS. apply number_le in Nc. apply le_INR in Nc. apply Rmult_le_reg_r with (INR NX); auto. unfold Rdiv. rewrite Rmult_assoc, Rinv_l by lra. lra.
    + intros [C|C]; [discriminate|contradiction].
Qed.
Print Assumptions C43_weights.

(** ** C46 *)

Lemma finite_choice : forall (A : Type) (d : A) T (P : nat -> A -> Prop), (forall t, (t < T)%nat -> exists x, P t x) -> exists f, forall t, (t < T)%nat -> P t (f t).
Proof.
  intros A d T P. induction T; intros H; [exists (fun _ => d); intros; lia|]. destruct IHT as (f & Hf); [intros; apply H; lia|]. destruct (H T ltac:(lia)) as (x & Hx).
  exists (fun t => if Nat.eqb t T then x else f t). intros t Ht. destruct (Nat.eqb_spec t T) as [->|]; auto. apply Hf. lia.
Qed.

(** p is the integer part of the n-th root of N; the integrand is a sum of
    products of polynomials, one in each active variable, of degree < 2p *)
Theorem C46_unbounded_exact : forall (G : gen) (U : Type) B ch eig argsort del (fn : ufun (U := U) (nd R) (nd R)) a N NMC m n Wm W1 W2 p T (c : nat -> nat -> list R) (w : world G U (nd R)),
  frame (d_subs (av_domain a)) m n Wm W1 W2 -> (1 <= n)%nat -> av_kind a = MUnbounded -> d_kind (av_domain a) = DUnbounded ->
  eig_contract eig -> eig_total eig -> argsort_contract argsort ->
  (1 <= p <= 10 ^ 24)%Z -> (p ^ Z.of_nat n <= N < (p + 1) ^ Z.of_nat n)%Z -> (1 <= NMC)%Z ->
  (forall t k, (t < T)%nat -> (k < n)%nat -> (List.length (c t k) <= 2 * Z.to_nat p)%nat) ->
  (forall x u, shape x = [1%nat; m] -> exists v u', fn x u = (Ok v, u') /\ size v = 1%nat /\
     flat v 0 = sumf T (fun t => prodf n (fun k => peval (c t k) (sumf m (fun j => x.[0%nat, j] * W1.[j, k]))))) ->
  exists (mean : nat -> nat -> R) w', (forall t k, (t < T)%nat -> (k < n)%nat -> gaussian_mean (peval (c t k)) (mean t k)) /\
    let mu := sumf T (fun t => prodf n (mean t)) in
    integrate B ch eig argsort del (IsA fn) (IsA a) (IsA N) (IsA NMC) w = (Ok (mu, mu, mu), w').
Proof.
  intros G U B ch eig argsort del fn [k d] N NMC m n Wm W1 W2 p T c w F Hn EK DK HE HT HA Hp HN HM HL HF. cbn [av_kind av_domain] in *. subst k.
  assert (Er := iroot_floor N n p Hn ltac:(lia) HN). assert (Ers := roots_repeat _ _ _ Er).
  destruct (C31_gauss_hermite_tensor eig argsort (repeat p n) HE HT HA ltac:(apply Forall_forall; intros z Hz; apply repeat_spec in Hz; lia)) as (Yp & Yw & EG & SYp & SYw & _ & _ & _ & _ & EX).
  specialize (EX ltac:(apply Forall_forall; intros z Hz; apply repeat_spec in Hz; lia)). rewrite repeat_length in SYp, EX. set (q := prodn (map Z.to_nat (repeat p n))) in *.
  assert (NTH : forall k, (k < n)%nat -> nth k (map Z.to_nat (repeat p n)) 0%nat = Z.to_nat p).
  { intros k Hk. change 0%nat with (Z.to_nat 0). rewrite map_nth. f_equal. apply (repeat_spec n p). apply nth_In. now rewrite repeat_length. }
  destruct (finite_choice (nat -> R) (fun _ => 0) T (fun t mu => (forall k, (k < n)%nat -> gaussian_mean (peval (c t k)) (mu k)) /\
         sumf q (fun r => Yw.[r, 0%nat] * prodf n (fun k => peval (c t k) (Yp.[r, k]))) = prodf n mu)) as (mean & HMN).
  { intros t Ht. apply EX. intros k Hk. rewrite NTH by auto. auto. }
  destruct (Z_of_nat_complete NMC ltac:(lia)) as (K & ->). assert (HK : (0 < K)%nat) by lia.
  assert (ER : av_quadrature_rule B ch eig argsort del (AVM MUnbounded d) N w = (Ok (Yp, Yw), w)).
  { unfold av_quadrature_rule. cbn [av_domain]. rewrite (fr_1 _ _ _ _ _ _ F). unfold mbind at 1, mlift at 1. cbn [need]. unfold mbind at 1, mlift at 1. unfold shape2. rewrite (fr_s1 _ _ _ _ _ _ F). rewrite DK, Ers. cbn [rbind]. rewrite EG. reflexivity. }
  destruct (C21_unbounded_inverse G U (nd R) B d m n Wm W1 W2 Yp q K w F SYp) as (Xp & ind & EI & _).
  set (w2 := set_rng w _) in EI.
  assert (EQ : exists Xw, quadrature_rule B ch eig argsort del (IsA (AVM MUnbounded d)) (IsA N) (IsA (Z.of_nat K)) w = (Ok (Xp, Xw, ind), w2)).
  { unfold quadrature_rule. unfold mbind at 1. rewrite ER. unfold mbind at 1. rewrite EI. unfold mbind at 1, mlift at 1. unfold dimZ. destruct (Z.ltb_spec (Z.of_nat K) 0) as [C|_]; [lia|]. eexists. reflexivity. }
  destruct EQ as (Xw & EQ).
  destruct (rule_returns _ _ _ _ _ _ _ (AVM MUnbounded d) _ _ _ _ _ _ _ _ _ _ _ _ F (or_introl eq_refl) EQ) as (Yp' & Yw' & w1 & q' & K' & ER' & EK & RU). apply Nat2Z.inj in EK. subst K'.
  rewrite ER in ER'. injection ER' as <- <- <-. assert (q' = q) by (assert (A := ru_Yw _ _ _ _ _ _ _ _ _ _ _ RU); rewrite SYw in A; now injection A). subst q'.
  assert (RU' := RU). destruct RU' as [_ _ SXp SXw SI VM VW VI].
  assert (QQ : (0 < q)%nat). { unfold q. assert (P : (1 <= Z.to_nat p)%nat) by lia. clear - P. induction n; cbn [repeat map prodn]; [lia|]. nia. }
  assert (RA : forall r, shape (rowarr Xp r) = [1%nat; m]) by (intros r; unfold rowarr; cbn [shape mk2]; now rewrite (ncols_shape2 _ _ _ _ SXp)).
  set (g := fun i => sumf T (fun t => prodf n (fun k => peval (c t k) (Yp.[i, k])))).
  destruct (C05_run_calls_rows_in_order G U fn Xp _ _ w2 SXp) as (us & _ & [(FF & w3 & EF & SF & _ & VF)|(r & e & w3 & _ & _ & _ & _ & [C|(v & C & SV & _)])]).
  2: { destruct (HF (rowarr Xp r) (us r) (RA r)) as (v & u' & E & _). rewrite E in C. discriminate. }
  2: { destruct (HF (rowarr Xp r) (us r) (RA r)) as (v' & u' & E & S' & _). rewrite E in C. injection C as <- _. contradiction. }
  assert (FV : forall i l, (i < q)%nat -> (l < K)%nat -> FF.[(i * K + l)%nat, 0%nat] = g i).
  { intros i l Hi Hl. destruct (VF (i * K + l)%nat ltac:(nia)) as (v & E & _ & ->). destruct (HF (rowarr Xp (i * K + l)) (us (i * K + l)%nat) (RA _)) as (v' & u' & E' & _ & EV). rewrite E in E'. injection E' as <- _. rewrite EV.
    unfold g. apply sumf_ext. intros t Ht. apply prodf_ext. intros k Hk. f_equal. apply (VM i l Hi Hl k Hk). }
  assert (R := integrate_run G U B ch eig argsort del fn (AVM MUnbounded d) N w w2 w3 W1 Yp Yw Xp Xw ind m n q K FF EQ RU HK QQ EF SF). cbv zeta in R.
  assert (V0 : sumf q (fun i => Yw.[i, 0%nat] * Yw.[i, 0%nat] * gvar (fun r => FF.[r, 0%nat]) K i) = 0).
  { apply sumf_zero. intros i Hi. rewrite (proj2 (gvar_zero (fun r => FF.[r, 0%nat]) K i HK)); [ring|]. intros l l' Hl Hl'. cbv beta. now rewrite !FV. }
  assert (PK : 0 < INR K) by (apply lt_0_INR; lia).
  assert (MU : sumf (q * K) (fun r => Xw.[r, 0%nat] * FF.[r, 0%nat]) = sumf T (fun t => prodf n (mean t))).
  { rewrite sumf_prod. rewrite (sumf_ext q _ (fun i => sumf T (fun t => Yw.[i, 0%nat] * prodf n (fun k => peval (c t k) (Yp.[i, k]))))).
    - rewrite sumf_swap. apply sumf_ext. intros t Ht. apply (HMN t Ht).
    - intros i Hi. rewrite (sumf_ext K _ (fun _ => Yw.[i, 0%nat] / INR K * g i)) by (intros l Hl; now rewrite VW, FV). rewrite sumf_const, sumf_scal_l. unfold g. field. lra. }
  rewrite V0, MU in R. unfold Rdiv in R. rewrite (Rmult_0_l (/ INR K)), sqrt_0, Rmult_0_r, Rminus_0_r, Rplus_0_r in R.
  exists mean, w3. split; [intros t k Ht Hk; now apply (HMN t Ht)|]. exact R.
Qed.
Print Assumptions C46_unbounded_exact.

Definition map3 : avmap := AVM MUnbounded (AVD DUnbounded sub3 3 1 None None None None).
(** four nodes, y^2: the mean is 1 whatever is drawn *)
Example C46_case : forall NMC (G : gen) (w : world G unit (nd R)), (1 <= NMC)%Z -> exists w',
  integrate backend_ref (fun _ => Err ValueError) eigh_ref argsort_ref (fun _ => Err ValueError)
    (IsA (pure (fun x => (/ 3 * x.[0%nat, 0%nat] + 2 / 3 * x.[0%nat, 1%nat] + 2 / 3 * x.[0%nat, 2%nat]) ^ 2))) (IsA map3) (IsA 4%Z) (IsA NMC) w = (Ok (1, 1, 1), w').
Proof.
  intros NMC G w HM.
  destruct (C46_unbounded_exact G unit backend_ref (fun _ => Err ValueError) eigh_ref argsort_ref (fun _ => Err ValueError)
    (pure (fun x => (/ 3 * x.[0%nat, 0%nat] + 2 / 3 * x.[0%nat, 1%nat] + 2 / 3 * x.[0%nat, 2%nat]) ^ 2)) map3 4 NMC 3 1 W3 W31 W32 4 1 (fun _ _ => [0; 0; 1]) w frame3
    ltac:(lia) eq_refl eq_refl eig_ref_contract eig_ref_total argsort_ref_contract ltac:(lia) ltac:(simpl; lia) HM) as (mean & w' & HG & E).
  - intros t k _ _. simpl. lia.
  - intros x u Sx. do 2 eexists. split; [reflexivity|]. split; [reflexivity|]. unfold flat. cbn [at_ shape unravel]. cbn [sumf prodf peval]. unfold W31, W3, cols_slice; cbn [at_ mk2 nth Nat.add]. field.
  - exists w'. cbv zeta in E. cbn [sumf prodf] in E.
    assert (A := hermite_mean [0; 0; 1]). simpl List.length in A. unfold sumf, nth in A.
    assert (T2 : Tpow sh 2 0 = 1). { assert (Q1 := sh_sq 1). simpl INR in Q1. simpl. unfold Tap, kron_delta. simpl. nra. }
    rewrite T2 in A. match type of A with gaussian_mean _ ?v => assert (EV : v = 1) by ring end. rewrite EV in A.
    rewrite (gaussian_mean_unique _ _ _ (HG 0%nat 0%nat ltac:(lia) ltac:(lia)) A) in E. rewrite Rplus_0_l, Rmult_1_l in E. exact E.
Qed.

(** one node and two points over it, at which x_0 is 0 and -2/3 *)
Example C43_case : exists w', let h := 196 / 100 * sqrt (/ 9 / 2) in
  integrate backend_ref (fun _ => Err ValueError) eigh_ref argsort_ref (fun _ => Err ValueError) (IsA (pure (fun x => x.[0%nat, 0%nat]))) (IsA map3) (IsA 1%Z) (IsA 2%Z)
    (toy_world tt : world toy_gen unit (nd R)) = (Ok (- / 3, - / 3 - h, - / 3 + h), w').
Proof.
  set (w := toy_world tt : world toy_gen unit (nd R)).
  assert (exists Yp Yw, gauss_hermite eigh_ref argsort_ref (NList [1%Z]) = Ok (Yp, Yw) /\ shape Yp = [1; 1]%nat /\ shape Yw = [1; 1]%nat /\ Yw.[0%nat, 0%nat] = 1 /\ Yp.[0%nat, 0%nat] = 0) as (Yp & Yw & EG & SYp & SYw & VW & VP).
  { do 2 eexists. split; [reflexivity|]. split; [reflexivity|]. split; [reflexivity|]. split; cbn; lra. }
  assert (ER : av_quadrature_rule backend_ref (fun _ => Err ValueError) eigh_ref argsort_ref (fun _ => Err ValueError) map3 1 w = (Ok (Yp, Yw), w)).
  { unfold av_quadrature_rule, map3. cbn [av_domain d_subs sub3 s_W1 need d_kind]. unfold mbind at 1, mlift at 1. unfold mbind at 1, mlift at 1.
    change (shape2 W31) with (Ok (A := nat * nat) (3%nat, 1%nat)). cbv iota beta. rewrite (roots_repeat 1 1 1 (iroot_floor 1 1 1 ltac:(lia) ltac:(lia) ltac:(simpl; lia))). cbn [rbind repeat]. rewrite EG. reflexivity. }
  destruct (C21_unbounded_inverse toy_gen unit (nd R) backend_ref (AVD DUnbounded sub3 3 1 None None None None) 3 1 W3 W31 W32 Yp 1 2 w frame3 SYp) as (Xp & ind & EI & IO).
  set (w2 := set_rng w _) in EI. change (Z.of_nat 2) with 2%Z in EI. cbn [normals fst] in IO.
  assert (EQ : exists Xw, quadrature_rule backend_ref (fun _ => Err ValueError) eigh_ref argsort_ref (fun _ => Err ValueError) (IsA map3) (IsA 1%Z) (IsA 2%Z) w = (Ok (Xp, Xw, ind), w2)).
  { unfold quadrature_rule. unfold mbind at 1. rewrite ER. unfold mbind at 1. unfold map3. rewrite EI. eexists. reflexivity. }
  destruct EQ as (Xw & EQ). destruct (rule_returns _ _ _ _ _ _ _ map3 _ _ _ _ _ _ _ _ _ _ _ _ frame3 (or_introl eq_refl) EQ) as (Yp' & Yw' & w1 & q & K & ER' & EK & RU).
  assert (K = 2%nat) by lia. subst K. rewrite ER in ER'. injection ER' as <- <- <-. assert (q = 1%nat) by (assert (A := ru_Yw _ _ _ _ _ _ _ _ _ _ _ RU); rewrite SYw in A; now injection A). subst q.
  destruct IO as (SX & _ & _ & Y' & Z' & EF & FY & FZ). destruct (C21_forward map3 3 1 W3 W31 W32 Xp 2 frame3 SX) as (Y2 & Z2 & EF2 & _ & _ & _ & _ & XV & _). unfold map3 in EF2. rewrite EF in EF2. injection EF2 as <- <-.
  assert (FY' := fun l j => FY 0%nat l j ltac:(lia)). assert (FZ' := fun l j => FZ 0%nat l j ltac:(lia)). cbn [Nat.mul Nat.add] in FY', FZ'.
  assert (X0 : Xp.[0%nat, 0%nat] = 0). { rewrite XV by lia. cbn [sumf Nat.sub]. rewrite (FY' 0%nat 0%nat), (FZ' 0%nat 0%nat), (FZ' 0%nat 1%nat) by lia. rewrite VP, !at_mk3. cbn. lra. }
  assert (X1 : Xp.[1%nat, 0%nat] = - (2 / 3)). { rewrite XV by lia. cbn [sumf Nat.sub]. rewrite (FY' 1%nat 0%nat), (FZ' 1%nat 0%nat), (FZ' 1%nat 1%nat) by lia. rewrite VP, !at_mk3. cbn. lra. }
  destruct (sim_run_pure toy_gen unit (fun x => x.[0%nat, 0%nat]) Xp 2 3 w2 SX) as (FF & w3 & EFF & SF & VF).
  assert (R := integrate_run toy_gen unit backend_ref (fun _ => Err ValueError) eigh_ref argsort_ref (fun _ => Err ValueError) (pure (fun x => x.[0%nat, 0%nat])) map3 1 w w2 w3 W31 Yp Yw Xp Xw ind 3 1 1 2 FF EQ RU ltac:(lia) ltac:(lia) EFF SF).
  cbv zeta in R. change (1 * 2)%nat with 2%nat in R. unfold gvar, gmean in R. cbn [sumf Nat.mul Nat.add] in R.
  assert (XW : forall l, (l < 2)%nat -> Xw.[l, 0%nat] = / 2). { intros l Hl. eapply eq_trans; [apply (ru_w _ _ _ _ _ _ _ _ _ _ _ RU 0%nat l); lia|]. rewrite VW. simpl INR. lra. }
  rewrite !XW, !VF, VW in R by lia. cbn [rowarr] in R. unfold rowarr in R. rewrite !at_mk2, X0, X1 in R. simpl INR in R.
  assert (M1 : 0 + / 2 * 0 + / 2 * - (2 / 3) = - / 3) by lra. rewrite M1 in R.
  match type of R with context [sqrt (?v / ?k)] => assert (M2 : v / k = / 9 / 2) by (field_simplify; lra) end. rewrite M2 in R.
  exists w3. exact R.
Qed.

(** ** C56: av_integrate *)

Theorem C56_av_integrate_function : forall (G : gen) (U : Type) B ch eig argsort del (fn : ufun (U := U) (nd R) (nd R)) a N m n W1 (w w' : world G U (nd R)) I,
  s_W1 (d_subs (av_domain a)) = Some W1 -> shape W1 = [m; n] ->
  av_integrate B ch eig argsort del (AVFun (IsA fn)) (IsA a) (IsA N) w = (Ok I, w') ->
  exists Yp Yw w1 q (us : nat -> U) (f : nat -> R), av_quadrature_rule B ch eig argsort del a N w = (Ok (Yp, Yw), w1) /\ shape Yp = [q; n] /\ shape Yw = [q; 1%nat] /\
    us 0%nat = usr w /\ (forall i, (i < q)%nat -> exists v, fn (rowarr Yp i) (us i) = (Ok v, us (S i)) /\ size v = 1%nat /\ f i = flat v 0) /\
    w' = World (rng w1) (us q) (calls w ++ map (rowarr Yp) (seq 0 q)) (files w) /\ I = sumf q (fun i => Yw.[i, 0%nat] * f i).
Proof.
  intros G U B ch eig argsort del fn a N m n W1 w w' I EW SW H. unfold av_integrate in H. apply mbind_ok in H. destruct H as ([Yp Yw] & w1 & ER & H).
  destruct (av_rule_shape _ _ _ _ _ _ _ _ _ _ _ m n W1 _ _ EW SW ER) as (q & SYp & SYw). assert (QD := quiet_av_rule _ _ _ _ _ _ _ _ _ _ _ _ ER). destruct QD as (QU & QC & QF).
  apply mbind_ok in H. destruct H as (FF & w2 & EF & H). apply mbind_ok in EF. destruct EF as (fn' & w3 & E & EF). apply mlift_inv in E. destruct E as [E ->]. injection E as <-.
  destruct (C05_run_calls_rows_in_order G U fn Yp _ _ w1 SYp) as (us & U0 & [(F' & w4 & EF' & SF & EW' & VF)|(k & e & w4 & _ & EF' & _)]); rewrite EF in EF'; [|discriminate].
  injection EF' as <- <-. apply mbind_ok in H. destruct H as (mu & w3 & E & H). apply mlift_inv in E. destruct E as [E ->]. apply mlift_inv in H. destruct H as [H ->].
  assert (ST : shape (tr Yw) = [1%nat; q]) by (unfold tr; cbn [shape mk2]; now rewrite (nrows_shape2 _ _ _ _ SYw), (ncols_shape2 _ _ _ _ SYw)).
  rewrite (npdot2 (tr Yw) FF 1 q 1 ST SF) in E. injection E as <-. cbn in H. injection H as <-.
  exists Yp, Yw, w1, q, us, (fun i => FF.[i, 0%nat]). split; auto. split; auto. split; auto. split; [congruence|]. split; auto. split; [rewrite EW'; congruence|].
  apply sumf_ext. reflexivity.
Qed.
Print Assumptions C56_av_integrate_function.

(** a surface supplied by the user predicts one number per row *)
Definition columns (s : asrs) : Prop :=
  match as_rs s with RSUser _ (Some p) => forall Y g F D q n, shape Y = [q; n] -> p Y g = Ok (F, D) -> shape F = [q; 1%nat] | _ => True end.
Lemma predict_shape : forall s Y q n F D, columns s -> shape Y = [q; n] -> predict_av s Y false = Ok (F, D) -> shape F = [q; 1%nat].
Proof.
  intros s Y q n F D HC SY H. unfold predict_av, rs_predict in H. unfold columns in HC. destruct (as_rs s) as [? [p|]|? [p|]|? [p|]]; try discriminate.
  2: { unfold poly_predict in H. rewrite (process_inputs_ok _ Y q n SY) in H. cbn [rbind] in H. destruct (polynomial_bases _ _) as [[Bm II]|e]; [|discriminate]. cbn [rbind] in H.
    destruct (mdot _ _); [|discriminate]. cbn [rbind] in H. destruct (reshape _ _) eqn:E; [|discriminate]. injection H as <- _. apply reshape_inv in E. apply E. }
  - unfold rbf_predict in H. rewrite (process_inputs_ok _ Y q n SY) in H. cbn [rbind] in H. destruct (exponential_squared _ _ _ _); [|discriminate]. cbn [rbind] in H. destruct (polynomial_bases _ _) as [[Bm II]|e]; [|discriminate]. cbn [rbind] in H.
    destruct (mdot _ _); [|discriminate]. cbn [rbind] in H. destruct (mdot _ _); [|discriminate]. cbn [rbind] in H. destruct (bcast2 _ _ _); [|discriminate]. cbn [rbind] in H. destruct (reshape _ _) eqn:E; [|discriminate]. injection H as <- _. apply reshape_inv in E. apply E.
  - exact (HC Y _ _ _ _ _ SY H).
Qed.
(** with a response surface: its predictions at the nodes, and no calls *)
Theorem C56_av_integrate_surface : forall (G : gen) (U : Type) B ch eig argsort del s a N m n W1 (w w' : world G U (nd R)) I,
  s_W1 (d_subs (av_domain a)) = Some W1 -> shape W1 = [m; n] -> columns s ->
  av_integrate (G := G) (U := U) B ch eig argsort del (AVSurface s) (IsA a) (IsA N) w = (Ok I, w') ->
  exists Yp Yw q F D, av_quadrature_rule B ch eig argsort del a N w = (Ok (Yp, Yw), w') /\ shape Yw = [q; 1%nat] /\
    predict_av s Yp false = Ok (F, D) /\ shape F = [q; 1%nat] /\ I = sumf q (fun i => Yw.[i, 0%nat] * F.[i, 0%nat]) /\ usr w' = usr w /\ calls w' = calls w.
Proof.
  intros G U B ch eig argsort del s a N m n W1 w w' I EW SW HC H. unfold av_integrate in H. apply mbind_ok in H. destruct H as ([Yp Yw] & w1 & ER & H).
  destruct (av_rule_shape _ _ _ _ _ _ _ _ _ _ _ m n W1 _ _ EW SW ER) as (q & SYp & SYw). assert (QD := quiet_av_rule _ _ _ _ _ _ _ _ _ _ _ _ ER). destruct QD as (QU & QC & QF).
  apply mbind_ok in H. destruct H as (FF & w2 & EF & H). apply mlift_inv in EF. destruct EF as [EF ->]. destruct (predict_av s Yp false) as [[F D]|e] eqn:EP; [|discriminate]. cbn [rbind] in EF. injection EF as <-.
  apply mbind_ok in H. destruct H as (mu & w3 & E & H). apply mlift_inv in E. destruct E as [E ->]. apply mlift_inv in H. destruct H as [H ->].
  assert (ST : shape (tr Yw) = [1%nat; q]) by (unfold tr; cbn [shape mk2]; now rewrite (nrows_shape2 _ _ _ _ SYw), (ncols_shape2 _ _ _ _ SYw)).
  assert (SF := predict_shape s Yp q n F D HC SYp EP).
  rewrite (npdot2 (tr Yw) F 1 q 1 ST SF) in E. injection E as <-. cbn in H. injection H as <-.
  exists Yp, Yw, q, F, D. split; [exact ER|]. split; [auto|]. split; [auto|]. split; [auto|]. split; [reflexivity|]. auto.
Qed.
Print Assumptions C56_av_integrate_surface.

Theorem C56_raises : forall (G : gen) (U : Type) B ch eig argsort del f a N (w : world G U (nd R)),
  a = NotA \/ N = NotA -> av_integrate B ch eig argsort del f a N w = (Err TypeError, w).
Proof. intros G U B ch eig argsort del f a N w H. destruct a, N; destruct H as [H|H]; try discriminate; reflexivity. Qed.
Print Assumptions C56_raises.

(** the mean of exp over the one-node rule of the same domain *)
Example C56_case : exists I w', av_integrate backend_ref (fun _ => Err ValueError) eigh_ref argsort_ref (fun _ => Err ValueError) (AVFun (IsA (pure (fun y => exp (y.[0%nat, 0%nat]))))) (IsA map3) (IsA 1%Z)
    (toy_world tt : world toy_gen unit (nd R)) = (Ok I, w') /\ I = 1 /\ List.length (calls w') = 1%nat.
Proof.
  set (w := toy_world tt : world toy_gen unit (nd R)).
  assert (exists Yp Yw, gauss_hermite eigh_ref argsort_ref (NList [1%Z]) = Ok (Yp, Yw) /\ shape Yp = [1; 1]%nat /\ shape Yw = [1; 1]%nat /\ Yw.[0%nat, 0%nat] = 1 /\ Yp.[0%nat, 0%nat] = 0) as (Yp & Yw & EG & SYp & SYw & VW & VP).
  { do 2 eexists. split; [reflexivity|]. split; [reflexivity|]. split; [reflexivity|]. split; cbn; lra. }
  assert (ER : av_quadrature_rule backend_ref (fun _ => Err ValueError) eigh_ref argsort_ref (fun _ => Err ValueError) map3 1 w = (Ok (Yp, Yw), w)).
  { unfold av_quadrature_rule, map3. cbn [av_domain d_subs sub3 s_W1 need d_kind]. unfold mbind at 1, mlift at 1. unfold mbind at 1, mlift at 1.
    change (shape2 W31) with (Ok (A := nat * nat) (3%nat, 1%nat)). cbv iota beta. rewrite (roots_repeat 1 1 1 (iroot_floor 1 1 1 ltac:(lia) ltac:(lia) ltac:(simpl; lia))). cbn [rbind repeat]. rewrite EG. reflexivity. }
  destruct (sim_run_pure toy_gen unit (fun y => exp (y.[0%nat, 0%nat])) Yp 1 1 w SYp) as (FF & w3 & EFF & SF & VF).
  assert (ST : shape (tr Yw) = [1%nat; 1%nat]) by (unfold tr; cbn [shape mk2]; now rewrite (nrows_shape2 _ _ _ _ SYw), (ncols_shape2 _ _ _ _ SYw)).
  assert (R : exists I, av_integrate backend_ref (fun _ => Err ValueError) eigh_ref argsort_ref (fun _ => Err ValueError) (AVFun (IsA (pure (fun y => exp (y.[0%nat, 0%nat]))))) (IsA map3) (IsA 1%Z) w = (Ok I, w3)).
  { unfold av_integrate. unfold mbind at 1. rewrite ER. unfold mbind at 1. unfold mbind at 1, mlift at 1. cbn [SimulationRunner_init]. rewrite EFF. unfold mbind at 1, mlift at 1. rewrite (npdot2 (tr Yw) FF 1 1 1 ST SF). eexists. reflexivity. }
  destruct R as (I & R). exists I, w3. split; [exact R|].
  destruct (C56_av_integrate_function _ _ _ _ _ _ _ _ map3 1 3 1 W31 w w3 I eq_refl eq_refl R) as (Yp' & Yw' & w1 & q & us & f & ER' & _ & SQ & _ & Vf & Ew & EI).
  rewrite ER in ER'. injection ER' as <- <- <-. rewrite SYw in SQ. injection SQ as <-. split.
  - rewrite EI. cbn [sumf]. destruct (Vf 0%nat ltac:(lia)) as (v & E & _ & ->). injection E as <- _. rewrite VW. unfold flat, rowarr. cbn [at_ mk2]. change (exp _) with (exp (Yp.[0%nat, 0%nat])). rewrite VP, exp_0. lra.
  - rewrite Ew. reflexivity.
Qed.
