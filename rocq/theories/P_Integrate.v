(** Proofs about integrals.py: integrate, quadrature_rule and av_integrate *)
From Coq Require Import String Reals Lra Lia List Arith ZArith Bool.
From Verif Require Import Prelude Py NumArr M_Misc M_SimRunners M_RespSurf M_Gradients M_Subspaces M_Quadrature M_QP M_Domains M_Designs M_ASRS M_Integrals
  P_Misc P_SimRunners P_DomSample P_Domains P_CondExp P_Quiet P_Inverse P_Integrals Properties_Misc Properties_QP Properties_Domains Properties_Designs.
Import ListNotations.
Open Scope R_scope.

Lemma quiet_av_rule : forall G U B ch eig argsort del a N, quiet (G := G) (U := U) (L := nd R) (av_quadrature_rule B ch eig argsort del a N).
Proof.
  intros. unfold av_quadrature_rule. cbv zeta. apply quiet_bind; [apply quiet_lift|intros W1]. apply quiet_bind; [apply quiet_lift|intros [m n]].
  destruct (d_kind _); [apply quiet_lift| |apply quiet_err]. destruct (Nat.eqb n 1).
  - unfold interval_quadrature_rule. repeat first [apply quiet_uniform2 | apply quiet_lift | apply quiet_ret | (apply quiet_bind; [|intros]) | match goal with |- quiet (match ?x with _ => _ end) => destruct x end].
  - unfold zonotope_quadrature_rule. repeat first [apply quiet_uniform2 | apply quiet_lift | apply quiet_ret | apply quiet_maximin | (apply quiet_bind; [|intros]) | match goal with |- quiet (match ?x with _ => _ end) => destruct x end].
Qed.
Lemma quiet_rule : forall G U B ch eig argsort del a N NMC, quiet (G := G) (U := U) (L := nd R) (quadrature_rule B ch eig argsort del a N NMC).
Proof.
  intros. unfold quadrature_rule. destruct a as [a|], N as [N|], NMC as [NMC|]; try apply quiet_err.
  apply quiet_bind; [apply quiet_av_rule|intros [Yp Yw]]. apply quiet_bind; [apply quiet_inverse|intros [Xp ind]]. apply quiet_bind; [apply quiet_lift|intros]. apply quiet_ret.
Qed.

Lemma av_rule_shape : forall G U B ch eig argsort del a N (w w' : world G U (nd R)) m n W1 Yp Yw, s_W1 (d_subs (av_domain a)) = Some W1 -> shape W1 = [m; n] ->
  av_quadrature_rule B ch eig argsort del a N w = (Ok (Yp, Yw), w') -> exists q, shape Yp = [q; n] /\ shape Yw = [q; 1%nat].
Proof.
  intros G U B ch eig argsort del a N w w' m n W1 Yp Yw EW SW H. unfold av_quadrature_rule in H. cbv zeta in H. rewrite EW in H.
  apply mbind_ok in H. destruct H as (W1' & w1 & E & H). apply mlift_inv in E. destruct E as [E ->]. injection E as <-.
  apply mbind_ok in H. destruct H as ([m' n'] & w1 & E & H). apply mlift_inv in E. destruct E as [E ->]. unfold shape2 in E. rewrite SW in E. injection E as <- <-.
  destruct (d_kind _) eqn:DK.
  - apply mlift_inv in H. destruct H as [H ->]. destruct (roots N n) as [l|e] eqn:ER; [|discriminate]. cbn [rbind] in H.
    destruct (tensor_shape _ (g1d_cols eig argsort "Hermite") l Yp Yw H) as (q & A & C). rewrite (roots_length _ _ _ ER) in A. eauto.
  - destruct (Nat.eqb_spec n 1) as [->|_].
    + unfold interval_quadrature_rule in H. do 4 (apply mbind_ok in H; destruct H as (? & ? & _ & H)).
      apply mbind_ok in H. destruct H as ([? ?] & ? & _ & H). do 8 (apply mbind_ok in H; destruct H as (? & ? & _ & H)).
      apply mret_inv in H. destruct H as [H _]. injection H as -> ->. eexists; split; reflexivity.
    + unfold zonotope_quadrature_rule in H. apply mbind_ok in H. destruct H as (? & ? & E & H). apply mlift_inv in E. destruct E as [_ ->]. apply mbind_ok in H. destruct H as (? & ? & E & H). apply mlift_inv in E. destruct E as [E ->].
      rewrite EW in E. injection E as <-.
      apply mbind_ok in H. destruct H as ([m' n'] & ? & E & H). apply mlift_inv in E. destruct E as [E ->]. unfold shape2 in E. rewrite SW in E. injection E as <- <-.
      do 2 (apply mbind_ok in H; destruct H as (? & ? & _ & H)). apply mbind_ok in H. destruct H as ([? ?] & ? & _ & H). cbv zeta in H. do 4 (apply mbind_ok in H; destruct H as (? & ? & _ & H)).
      apply mbind_ok in H. destruct H as (? & ? & E & H). apply mlift_inv in E. destruct E as [E ->]. apply mret_inv in H. destruct H as [H _]. injection H as -> ->.
      apply reshape_inv in E. eexists; split; [apply E|reflexivity].
  - discriminate.
Qed.

(** everything known about the rule that integrate uses *)
Record rule_ok (a : avmap) (W1 Yp Yw Xp Xw ind : nd R) (m n q K : nat) : Prop := {
  ru_Yp : shape Yp = [q; n]; ru_Yw : shape Yw = [q; 1%nat]; ru_Xp : shape Xp = [(q * K)%nat; m]; ru_Xw : shape Xw = [(q * K)%nat; 1%nat]; ru_ind : shape ind = [(q * K)%nat; 1%nat];
  ru_map : forall i l, (i < q)%nat -> (l < K)%nat -> maps_to W1 Yp m n i (fun c => Xp.[(i * K + l)%nat, c]);
  ru_w : forall i l, (i < q)%nat -> (l < K)%nat -> Xw.[(i * K + l)%nat, 0%nat] = Yw.[i, 0%nat] / INR K;
  ru_i : forall i l, (i < q)%nat -> (l < K)%nat -> ind.[(i * K + l)%nat, 0%nat] = INR i }.

Lemma rule_returns : forall G U B ch eig argsort del a N NMC (w w2 : world G U (nd R)) m n Wm W1 W2 Xp Xw ind,
  frame (d_subs (av_domain a)) m n Wm W1 W2 -> invertible B a ->
  quadrature_rule B ch eig argsort del (IsA a) (IsA N) (IsA NMC) w = (Ok (Xp, Xw, ind), w2) ->
  exists Yp Yw w1 q K, av_quadrature_rule B ch eig argsort del a N w = (Ok (Yp, Yw), w1) /\ NMC = Z.of_nat K /\ rule_ok a W1 Yp Yw Xp Xw ind m n q K.
Proof.
  intros G U B ch eig argsort del a N NMC w w2 m n Wm W1 W2 Xp Xw ind F HI H. unfold quadrature_rule in H.
  apply mbind_ok in H. destruct H as ([Yp Yw] & w1 & ER & H). destruct (av_rule_shape _ _ _ _ _ _ _ _ _ _ _ m n W1 _ _ (fr_1 _ _ _ _ _ _ F) (fr_s1 _ _ _ _ _ _ F) ER) as (q & SYp & SYw).
  apply mbind_ok in H. destruct H as ([X' ind'] & w3 & EI & H). destruct (inverse_returns _ _ _ _ _ _ _ _ _ _ _ _ _ _ _ _ _ F HI SYp EI) as (K & Z & -> & (SX & SI & VI & Y' & Z' & EF & FY & _)).
  apply mbind_ok in H. destruct H as (K' & w4 & E & H). apply mlift_inv in E. destruct E as [E ->]. unfold dimZ in E. destruct (Z.ltb_spec (Z.of_nat K) 0) as [C|_]; [lia|]. rewrite Nat2Z.id in E. injection E as <-.
  apply mret_inv in H. destruct H as [H ->]. injection H as -> -> ->.
  exists Yp, Yw, w1, q, K. split; auto. split; auto. split; auto.
  - now rewrite Nat.mul_comm.
  - cbn [shape amap]. rewrite (kron_shape Yw (ones2 K 1) q 1 K 1 SYw eq_refl). now rewrite Nat.mul_1_r.
  - now rewrite Nat.mul_comm.
  - intros i l Hi Hl j Hj. destruct (C21_forward a m n Wm W1 W2 X' (K * q) F SX) as (Y2 & Z2 & EF2 & _ & _ & FY2 & _). rewrite EF in EF2. injection EF2 as <- <-.
    rewrite <- (FY i l j) by auto. rewrite FY2 by (auto; nia). apply sumf_ext. intros; ring.
  - intros i l Hi Hl. unfold amap. cbn [at_]. unfold kron. change (at_ (mk2 ?a ?b ?f) [?x; ?y]) with (f x y). cbv beta. change (nrows (ones2 K 1)) with K. change (ncols (ones2 K 1)) with 1%nat.
    rewrite Nat.div_add_l, (Nat.div_small l K) by lia. rewrite Nat.add_0_r. unfold ones2. rewrite at_mk2, <- INR_IZR_INZ. simpl (0 / 1)%nat. field. apply not_0_INR. lia.
Qed.

(** mean and variance of the K values of node i *)
Definition gmean (f : nat -> R) (K i : nat) : R := sumf K (fun l => f (i * K + l)%nat) / INR K.
Definition gvar (f : nat -> R) (K i : nat) : R := sumf K (fun l => (f (i * K + l)%nat - gmean f K i) * (f (i * K + l)%nat - gmean f K i)) / INR K.

Lemma gvar_nonneg : forall f K i, (0 < K)%nat -> 0 <= gvar f K i.
Proof. intros f K i HK. unfold gvar. apply Rmult_le_pos; [apply (sumf_sq_nonneg K (fun l => f (i * K + l)%nat - gmean f K i))|left; apply Rinv_0_lt_compat, lt_0_INR; lia]. Qed.
Lemma gvar_zero : forall f K i, (0 < K)%nat -> (gvar f K i = 0 <-> forall l l', (l < K)%nat -> (l' < K)%nat -> f (i * K + l)%nat = f (i * K + l')%nat).
Proof.
  intros f K i HK. assert (PK : 0 < INR K) by (apply lt_0_INR; lia). unfold gvar. split.
  - intros H. assert (S0 : sumf K (fun l => (f (i * K + l)%nat - gmean f K i) * (f (i * K + l)%nat - gmean f K i)) = 0).
    { apply Rmult_eq_reg_r with (/ INR K); [|apply Rinv_neq_0_compat; lra]. rewrite Rmult_0_l. exact H. }
    assert (Q := sumf_sq_eq0 K (fun l => f (i * K + l)%nat - gmean f K i) S0). intros l l' Hl Hl'. assert (A := Q l Hl). assert (B := Q l' Hl'). cbv beta in A, B. lra.
  - intros H. assert (M0 : gmean f K i = f (i * K + 0)%nat).
    { unfold gmean. rewrite (sumf_ext K _ (fun _ => f (i * K + 0)%nat)) by (intros l Hl; apply H; auto). rewrite sumf_const. field. lra. }
    rewrite sumf_zero; [unfold Rdiv; ring|]. intros l Hl. rewrite M0, (H l 0%nat) by auto. ring.
Qed.

Lemma mc_estimate : forall a W1 Yp Yw Xp Xw ind m n q K F, rule_ok a W1 Yp Yw Xp Xw ind m n q K -> shape F = [(q * K)%nat; 1%nat] -> (0 < K)%nat -> (0 < q)%nat ->
  exists Ef Vf w V2 mu s, cond_exp F ind = Ok (Ef, Vf) /\ cond_exp (amap (fun x => x * IZR (Z.of_nat K)) Xw) ind = Ok (w, V2) /\
    npdot (tr Ef) w = Ok mu /\ npdot (tr Vf) (amap (fun x => x * x) w) = Ok s /\
    mu.[0%nat, 0%nat] = sumf (q * K) (fun r => Xw.[r, 0%nat] * F.[r, 0%nat]) /\
    s.[0%nat, 0%nat] = sumf q (fun i => Yw.[i, 0%nat] * Yw.[i, 0%nat] * gvar (fun r => F.[r, 0%nat]) K i).
Proof.
  intros a W1 Yp Yw Xp Xw ind m n q K F RU SF HK HQ. destruct RU as [SYp SYw SXp SXw SI _ VW VI]. assert (PK : 0 < INR K) by (apply lt_0_INR; lia).
  assert (N0 : (q * K = q * K + 0)%nat) by lia.
  destruct (cond_exp_design F ind q K 0) as (Ef & Vf & E1 & SE & SV & C1 & _); try (rewrite <- N0; assumption); auto; [intros; lia|].
  destruct (cond_exp_design (amap (fun x => x * IZR (Z.of_nat K)) Xw) ind q K 0) as (w & V2 & E2 & SW & _ & C2 & _); try (rewrite <- N0; assumption); auto; [intros; lia|].
  rewrite Nat.add_0_r in SE, SV, SW.
  assert (WV : forall i, (i < q)%nat -> w.[i, 0%nat] = Yw.[i, 0%nat]).
  { intros i Hi. rewrite (proj1 (C2 i Hi)). rewrite (sumf_ext K _ (fun _ => Yw.[i, 0%nat])).
    - rewrite sumf_const. field. lra.
    - intros l Hl. unfold amap; cbn [at_]. rewrite VW, <- INR_IZR_INZ by auto. field. lra. }
  assert (ST : forall X : nd R, shape X = [q; 1%nat] -> shape (tr X) = [1%nat; q]) by (intros X HX; unfold tr; cbn [shape mk2]; now rewrite (nrows_shape2 _ _ _ _ HX), (ncols_shape2 _ _ _ _ HX)).
  exists Ef, Vf, w, V2. do 2 eexists. split; [exact E1|]. split; [exact E2|]. split; [apply (npdot2 _ _ 1 q 1 (ST Ef SE) SW)|].
  split; [apply (npdot2 _ _ 1 q 1 (ST Vf SV)); exact SW|]. rewrite !at_mk2. split.
  - rewrite sumf_prod. apply sumf_ext. intros i Hi. unfold tr. rewrite at_mk2, WV by auto. rewrite (proj1 (C1 i Hi)).
    rewrite (sumf_ext K (fun l => Xw.[(i * K + l)%nat, 0%nat] * _) (fun l => Yw.[i, 0%nat] / INR K * F.[(i * K + l)%nat, 0%nat])) by (intros l Hl; now rewrite VW).
    rewrite sumf_scal_l. field. lra.
  - apply sumf_ext. intros i Hi. unfold tr. rewrite at_mk2. unfold amap; cbn [at_]. rewrite WV by auto. destruct (C1 i Hi) as [A B]. rewrite B. unfold gvar, gmean. rewrite A. ring.
Qed.

(** floor (N ^ (1/n)) *)
Lemma iroot_floor : forall N n p, (1 <= n)%nat -> (1 <= p)%Z -> (p ^ Z.of_nat n <= N < (p + 1) ^ Z.of_nat n)%Z -> iroot N n = Ok p.
Proof.
  intros N n p Hn Hp [L Up]. assert (PN : 0 < INR n) by (apply lt_0_INR; lia). assert (IP : 1 <= IZR p) by (now apply (IZR_le 1)).
  assert (RT : forall z, (1 <= z)%Z -> Rpower (IZR (z ^ Z.of_nat n)) (/ INR n) = IZR z).
  { intros z Hz. apply (IZR_le 1) in Hz. rewrite <- pow_IZR, <- Rpower_pow by lra. rewrite Rpower_mult, Rinv_r by lra. apply Rpower_1. lra. }
  assert (P1 : (1 <= p ^ Z.of_nat n)%Z) by (assert (Q := Z.pow_le_mono_l 1 p (Z.of_nat n) ltac:(lia)); rewrite Z.pow_1_l in Q; lia).
  unfold iroot. destruct (Z.ltb_spec N 0) as [C|_]; [lia|]. destruct (Z.eqb_spec N 0) as [C|_]; [lia|]. f_equal.
  assert (A : IZR p <= Rpower (IZR N) (/ INR n)).
  { rewrite <- (RT p Hp). apply Rle_Rpower_l; [left; now apply Rinv_0_lt_compat|]. split; [apply (IZR_lt 0); lia|now apply IZR_le]. }
  assert (B : Rpower (IZR N) (/ INR n) < IZR (p + 1)).
  { rewrite <- (RT (p + 1)%Z) by lia. apply Rlt_Rpower_l; [now apply Rinv_0_lt_compat|]. split; [apply (IZR_lt 0); lia|now apply IZR_lt]. }
  set (r := Rpower (IZR N) (/ INR n)) in *. destruct (base_Int_part r) as [C1 C2].
  assert (Q1 : IZR p < IZR (Int_part r + 1)) by (rewrite plus_IZR; lra). assert (Q2 : IZR (Int_part r) < IZR (p + 1)) by lra. apply lt_IZR in Q1. apply lt_IZR in Q2. lia.
Qed.
Lemma iroot_pos : forall N n, (1 <= N)%Z -> (1 <= n)%nat -> exists p, iroot N n = Ok p /\ (1 <= p)%Z.
Proof.
  intros N n HN Hn. unfold iroot. destruct (Z.ltb_spec N 0); [lia|]. destruct (Z.eqb_spec N 0); [lia|]. eexists. split; [reflexivity|].
  set (r := Rpower (IZR N) (/ INR n)). assert (R1 : 1 <= r).
  { unfold r. replace 1 with (Rpower 1 (/ INR n)) by (unfold Rpower; rewrite ln_1, Rmult_0_r; apply exp_0). apply Rle_Rpower_l; [left; apply Rinv_0_lt_compat, lt_0_INR; lia|]. split; [lra|]. now apply (IZR_le 1). }
  destruct (base_Int_part r) as [_ B]. assert (Q : IZR 0 < IZR (Int_part r)) by lra. apply lt_IZR in Q. lia.
Qed.
Lemma roots_repeat : forall N n p, iroot N n = Ok p -> roots N n = Ok (repeat p n).
Proof.
  intros N n p H. unfold roots. rewrite H. assert (GEN : forall k s, mapr (fun _ : nat => Ok p) (seq s k) = Ok (repeat p k)).
  { induction k; intros s; cbn [seq mapr repeat]; auto. cbn [rbind]. rewrite IHk. reflexivity. }
  apply GEN.
Qed.
