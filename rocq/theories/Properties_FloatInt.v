(** Final statements about integrals.py in floating point: C115. *)
From Coq Require Import Reals Lra Lia List Arith ZArith String Bool Permutation.
From Verif Require Import Properties_Float Toy GaussRules EighRef Sorting Prelude Py NumArr M_Misc M_SimRunners M_RespSurf M_Gradients M_Subspaces M_Quadrature M_QP M_Domains M_Designs M_ASRS M_Integrals M_Float M_FloatInt
  P_Misc P_SimRunners P_DomSample P_Domains P_CondExp P_Quiet P_Inverse P_Integrals P_Integrate P_Float P_FloatCode P_FloatInt
  Properties_Misc Properties_QP Properties_Domains Properties_Designs Properties_Misc Properties_Integrate.
Import ListNotations.
Open Scope R_scope.

(** ** C115 *)
(** what rounding can add to a sum of q products of group means over K values,
    the means added in depth d and the products in depth e; a is the sum of the
    means of |f|, y the sum of the |weights|, m the sum of their products *)
Definition rounding (F : format) (q K d e : nat) (a y m : R) : R :=
  let c := 1 + ulp1 F in
  let b := (c ^ (d + 1) * (c * INR K + 1) + 1) * eta F in
  (c ^ (2 * d + 4 + e) - 1) * m + c ^ e * (c ^ (d + 1) * a * b + (c ^ (d + 3) * y + INR q * (b + 1)) * eta F).

Lemma estimate_fl_ok : forall F ord dord A Xw ind q K (Y : nat -> R), valid F -> adds_all ord -> dots_all dord -> (0 < K)%nat -> (0 < q)%nat ->
  shape A = [(q * K)%nat; 1%nat] -> shape Xw = [(q * K)%nat; 1%nat] -> shape ind = [(q * K)%nat; 1%nat] ->
  (forall i l, (i < q)%nat -> (l < K)%nat -> ind.[(i * K + l)%nat, 0%nat] = INR i /\ Xw.[(i * K + l)%nat, 0%nat] = rnd F (Y i / INR K) /\ fmt F (A.[(i * K + l)%nat, 0%nat])) ->
  let mean i := sumf K (fun l => A.[(i * K + l)%nat, 0%nat]) / INR K in
  let amean i := sumf K (fun l => Rabs (A.[(i * K + l)%nat, 0%nat])) / INR K in
  exists mu lb ub, estimate_fl F ord dord A Xw ind (Z.of_nat K) = Ok (mu, lb, ub) /\ fmt F mu /\ fmt F lb /\ fmt F ub /\ lb <= mu <= ub /\
    Rabs (mu - sumf q (fun i => Y i * mean i)) <=
      rounding F q K (sdepth (ord K)) (ddepth (dord q)) (sumf q amean) (sumf q (fun i => Rabs (Y i))) (sumf q (fun i => Rabs (Y i) * amean i)).
Proof.
  intros F ord dord A Xw ind q K Y V Ho Hd HK HQ SA SX SI H mean amean.
  assert (PK : 0 < INR K) by now apply lt_0_INR.
  set (T := amap (fun x => rnd F (x * IZR (Z.of_nat K))) Xw).
  destruct (cond_exp_fl_design F ord A ind q K SA SI (fun i l a b => proj1 (H i l a b)) HK HQ) as (Ef & Vf & E1 & SE & SV & C1).
  destruct (cond_exp_fl_design F ord T ind q K SX SI (fun i l a b => proj1 (H i l a b)) HK HQ) as (w & V2 & E2 & SW & _ & C2).
  unfold estimate_fl. rewrite E1. cbn [rbind]. fold T. rewrite E2. cbn [rbind]. rewrite (dot_fl_ok F dord Ef w q SE SW HQ). cbn [rbind].
  rewrite (dot_fl_ok F dord Vf (amap (fun x => rnd F (x * x)) w) q SV SW HQ). cbn [rbind].
  set (mu := dfl F (dord q) (fun i => Ef.[i, 0%nat]) (fun i => w.[i, 0%nat])).
  set (s := dfl F (dord q) (fun i => Vf.[i, 0%nat]) _).
  assert (DL := Hd q HQ).
  assert (S0 : 0 <= s).
  { apply dfl_nonneg; auto. intros i Hi. apply (Permutation_in i DL) in Hi. apply in_seq in Hi.
    apply Rmult_le_pos; [rewrite (proj2 (C1 i ltac:(lia))); apply var_nonneg; auto|]. unfold amap; cbn [at_]. apply rnd_nonneg; auto. apply (Rle_0_sqr (w.[i, 0%nat])). }
  unfold sqrt_fl. rewrite <- INR_IZR_INZ.
  assert (Q0 : 0 <= rnd F (s / INR K)) by (apply rnd_nonneg; auto; apply Rmult_le_pos; [auto|left; now apply Rinv_0_lt_compat]).
  destruct (Rlt_dec (rnd F (s / INR K)) 0) as [C|_]; [lra|]. cbn [rbind].
  set (r := rnd F (sqrt _)). set (h := rnd F (rnd F (196 / 100) * r)).
  assert (R0 : 0 <= r) by (apply rnd_nonneg; auto; apply sqrt_pos).
  assert (H0 : 0 <= h) by (apply rnd_nonneg; auto; apply Rmult_le_pos; auto; apply rnd_nonneg; auto; lra).
  assert (Fm : fmt F mu) by (apply dfl_fmt; auto).
  exists mu, (rnd F (mu - h)), (rnd F (mu + h)). split; [reflexivity|]. split; [exact Fm|]. split; [apply rnd_fmt; auto|]. split; [apply rnd_fmt; auto|]. split.
  { assert (Em : rnd F mu = mu) by (apply fmt_fix; auto). rewrite <- Em at 2 3. split; apply rnd_mono; auto; lra. }
  (* the error *)
  unfold rounding. set (u := ulp1 F). set (c := 1 + u). assert (U : 0 < u) by apply ulp1_pos. assert (P := eta_pos F). set (n := eta F) in *.
  set (d := sdepth (ord K)). set (e := ddepth (dord q)). set (b := (c ^ (d + 1) * (c * INR K + 1) + 1) * n).
  assert (G : forall k, 1 <= c ^ k) by (intros k; apply (G1 F)).
  assert (B0 : 0 <= b).
  { unfold b. apply Rmult_le_pos; [|lra]. apply Rplus_le_le_0_compat; [|lra]. apply Rmult_le_pos; [generalize (G (d + 1)%nat); lra|]. assert (0 < c * INR K) by (apply Rmult_lt_0_compat; unfold c; lra). lra. }
  assert (BL : forall i, block A K i <> []) by (intros i Z; assert (Q := block_length A K i); rewrite Z in Q; simpl in Q; lia).
  assert (EE : forall i, (i < q)%nat -> Rabs (Ef.[i, 0%nat] - mean i) <= (c ^ (d + 1) - 1) * amean i + n).
  { intros i Hi. rewrite (proj1 (C1 i Hi)). assert (M := mean_err F V ord (block A K i) Ho (BL i)). cbv zeta in M. rewrite block_length, block_sum in M.
    fold u n c d in M. replace (S d) with (d + 1)%nat in M by lia. unfold mean, amean.
    replace (sumf K (fun l => Rabs (A.[(i * K + l)%nat, 0%nat]))) with (sumr (map Rabs (block A K i))); [apply M|].
    - intros z Hz. unfold block in Hz. apply in_map_iff in Hz. destruct Hz as (l & <- & Hl). apply in_seq in Hl. apply H; lia.
    - unfold block. rewrite map_map. apply sumr_map_seq. }
  assert (MA : forall i, Rabs (mean i) <= amean i).
  { intros i. unfold mean, amean, Rdiv. rewrite Rabs_mult, (Rabs_pos_eq (/ INR K)) by (left; now apply Rinv_0_lt_compat).
    apply Rmult_le_compat_r; [left; now apply Rinv_0_lt_compat|]. apply sumf_abs. }
  assert (A0 : forall i, 0 <= amean i) by (intros i; generalize (MA i) (Rabs_pos (mean i)); lra).
  assert (WE : forall i, (i < q)%nat -> Rabs (w.[i, 0%nat] - Y i) <= (c ^ (d + 3) - 1) * Rabs (Y i) + b).
  { intros i Hi. rewrite (proj1 (C2 i Hi)). set (v := rnd F (rnd F (Y i / INR K) * INR K)).
    replace (block T K i) with (repeat v K).
    - assert (Q := weight_err F ord K (Y i) V Ho HK). cbv zeta in Q. fold v u n c d in Q. replace (S d) with (d + 1)%nat in Q by lia. exact Q.
    - unfold block. rewrite (map_ext_in _ (fun _ => v)).
      + clear. generalize (seq 0 K) (seq_length K 0). intros l E. rewrite <- E. clear E. induction l; simpl; congruence.
      + intros l Hl. apply in_seq in Hl. unfold T, amap; cbn [at_]. rewrite (proj1 (proj2 (H i l Hi ltac:(lia)))), <- INR_IZR_INZ. reflexivity. }
  set (g := c ^ (d + 1)) in *. set (g3 := c ^ (d + 3)) in *. assert (Gg := G (d + 1)%nat). assert (G3 := G (d + 3)%nat). fold g in Gg. fold g3 in G3.
  set (t := fun i => g * amean i * b + g3 * Rabs (Y i) * n + n * b).
  assert (PE : forall i, (i < q)%nat -> Rabs (Ef.[i, 0%nat] * w.[i, 0%nat] - Y i * mean i) <= (g * g3 - 1) * (Rabs (Y i) * amean i) + t i /\
     Rabs (Ef.[i, 0%nat] * w.[i, 0%nat]) <= g * g3 * (Rabs (Y i) * amean i) + t i).
  { intros i Hi. rewrite (Rmult_comm (Y i)), (Rmult_comm (Rabs (Y i)) (amean i)). apply prod_err; auto; lra. }
  assert (DE := dfl_err F V (dord q) (fun i => Ef.[i, 0%nat]) (fun i => w.[i, 0%nat])). cbv zeta in DE. fold mu in DE.
  rewrite !(sumr_perm_seq _ _ _ DL), (Permutation_length DL), seq_length in DE. fold u n c e in DE.
  set (S1 := sumf q (fun i => Ef.[i, 0%nat] * w.[i, 0%nat])) in *. set (S2 := sumf q (fun i => Y i * mean i)).
  set (a := sumf q amean). set (y := sumf q (fun i => Rabs (Y i))). set (m := sumf q (fun i => Rabs (Y i) * amean i)).
  assert (TS : sumf q t = g * a * b + (g3 * y + INR q * b) * n).
  { unfold t. rewrite !sumf_plus, sumf_const. rewrite (sumf_ext q (fun i => g * amean i * b) (fun i => g * b * amean i)) by (intros; ring).
    rewrite (sumf_ext q (fun i => g3 * Rabs (Y i) * n) (fun i => g3 * n * Rabs (Y i))) by (intros; ring). rewrite !sumf_scal_l. fold a y. ring. }
  assert (X1 : Rabs (S1 - S2) <= (g * g3 - 1) * m + sumf q t).
  { unfold S1, S2. rewrite <- sumf_minus. eapply Rle_trans; [apply sumf_abs|].
    replace ((g * g3 - 1) * m + sumf q t) with (sumf q (fun i => (g * g3 - 1) * (Rabs (Y i) * amean i) + t i)) by (rewrite sumf_plus, sumf_scal_l; reflexivity).
    apply sumf_le. intros i Hi. apply PE; auto. }
  assert (X2 : sumf q (fun i => Rabs (Ef.[i, 0%nat] * w.[i, 0%nat])) <= g * g3 * m + sumf q t).
  { replace (g * g3 * m + sumf q t) with (sumf q (fun i => g * g3 * (Rabs (Y i) * amean i) + t i)) by (rewrite sumf_plus, sumf_scal_l; reflexivity).
    apply sumf_le. intros i Hi. apply PE; auto. }
  assert (Ge := G e). set (ge := c ^ e) in *.
  replace (mu - S2) with ((mu - S1) + (S1 - S2)) by ring. apply Rle_trans with (1 := Rabs_triang _ _).
  assert (X3 : (ge - 1) * sumf q (fun i => Rabs (Ef.[i, 0%nat] * w.[i, 0%nat])) <= (ge - 1) * (g * g3 * m + sumf q t)) by (apply Rmult_le_compat_l; lra).
  replace (c ^ (2 * d + 4 + e)) with (g * g3 * ge) by (unfold g, g3, ge; rewrite <- !pow_add; f_equal; lia).
  apply Rle_trans with ((ge - 1) * (g * g3 * m + sumf q t) + ge * INR q * n + ((g * g3 - 1) * m + sumf q t)); [lra|].
  rewrite TS. right. ring.
Qed.

Lemma quadrature_rule_rounded : forall F (G : gen) (U : Type) B ch eig argsort del a N K (w w2 : world G U (nd R)) Xp Xw ind,
  quadrature_rule B ch eig argsort del (IsA a) (IsA N) (IsA K) w = (Ok (Xp, Xw, ind), w2) ->
  quadrature_rule_fl F B ch eig argsort del (IsA a) (IsA N) (IsA K) w = (Ok (Xp, amap (rnd F) Xw, ind), w2).
Proof.
  intros F G U B ch eig argsort del a N K w w2 Xp Xw ind H. unfold quadrature_rule in H. unfold quadrature_rule_fl.
  apply mbind_ok in H. destruct H as ([Yp Yw] & w1 & E1 & H). apply mbind_ok in H. destruct H as ([X' i'] & w3 & E2 & H). apply mbind_ok in H. destruct H as (k & w4 & E3 & H).
  apply mret_inv in H. destruct H as [H ->]. injection H as -> -> ->.
  unfold mbind at 1. rewrite E1. unfold mbind at 1. rewrite E2. unfold mbind at 1. rewrite E3. reflexivity.
Qed.

(** integrate in floating point, for the points and the function values of a run
    of integrate: the same calls and the same final state, finite results in
    the right order, and an estimate as close as the depths of the sums allow. *)
Theorem C115_integrate : forall F ord dord (G : gen) (U : Type) B ch eig argsort del (fn : ufun (U := U) (nd R) (nd R)) a N NMC m n Wm W1 W2 (w w' : world G U (nd R)) mu lb ub,
  valid F -> adds_all ord -> dots_all dord ->
  frame (d_subs (av_domain a)) m n Wm W1 W2 -> invertible B a ->
  (forall x u v u', fn x u = (Ok v, u') -> size v = 1%nat -> fmt F (flat v 0)) ->
  integrate B ch eig argsort del (IsA fn) (IsA a) (IsA N) (IsA NMC) w = (Ok (mu, lb, ub), w') ->
  exists Yp Yw w1 Xp q K (f : nat -> R) (us : nat -> U) mu' lb' ub',
    av_quadrature_rule B ch eig argsort del a N w = (Ok (Yp, Yw), w1) /\ NMC = Z.of_nat K /\ (0 < K)%nat /\ (0 < q)%nat /\ shape Yw = [q; 1%nat] /\ shape Xp = [(q * K)%nat; m] /\
    us 0%nat = usr w /\ (forall r, (r < q * K)%nat -> exists v, fn (rowarr Xp r) (us r) = (Ok v, us (S r)) /\ size v = 1%nat /\ f r = flat v 0) /\
    integrate_fl F ord dord B ch eig argsort del (IsA fn) (IsA a) (IsA N) (IsA NMC) w = (Ok (mu', lb', ub'), w') /\
    fmt F mu' /\ fmt F lb' /\ fmt F ub' /\ lb' <= mu' <= ub' /\
    (let y i := Rabs (Yw.[i, 0%nat]) in
     let a i := sumf K (fun l => Rabs (f (i * K + l)%nat)) / INR K in
     Rabs (mu' - mu) <= rounding F q K (sdepth (ord K)) (ddepth (dord q)) (sumf q a) (sumf q y) (sumf q (fun i => y i * a i))).
Proof.
  intros F ord dord G U B ch eig argsort del fn a N NMC m n Wm W1 W2 w w' mu lb ub V Ho Hd FR HI HF H. assert (H0 := H). unfold integrate in H.
  apply mbind_ok in H. destruct H as ([[Xp Xw] ind] & w2 & ER & H). destruct (rule_returns _ _ _ _ _ _ _ _ _ _ _ _ _ _ _ _ _ _ _ _ FR HI ER) as (Yp & Yw & w1 & q & K & EA & -> & RU).
  assert (QD := quiet_rule _ _ _ _ _ _ _ _ _ _ _ _ _ ER). destruct QD as (QU & QC & QF).
  apply mbind_ok in H. destruct H as (NMC' & w3 & E & H). apply mlift_inv in E. destruct E as [E ->]. injection E as <-.
  apply mbind_ok in H. destruct H as (fn' & w3 & E & H). apply mlift_inv in E. destruct E as [E ->]. injection E as <-.
  apply mbind_ok in H. destruct H as (FF & w3 & EF & H).
  destruct (C05_run_calls_rows_in_order G U fn Xp _ _ w2 (ru_Xp _ _ _ _ _ _ _ _ _ _ _ RU)) as (us & U0 & [(F' & w4 & EF' & SF & EW & VF)|(k & e & w4 & _ & EF' & _)]); rewrite EF in EF'; [|discriminate].
  injection EF' as <- <-.
  apply mbind_ok in H. destruct H as ([E Va] & w4 & EC & H). apply mlift_inv in EC. destruct EC as [EC ->].
  assert (HP : (0 < K)%nat /\ (0 < q)%nat).
  { destruct (Nat.eq_dec (q * K) 0) as [Z0|Z0]; [|nia]. exfalso.
    unfold cond_exp in EC. rewrite (nrows_shape2 _ FF _ _ SF), (nrows_shape2 _ ind _ _ (ru_ind _ _ _ _ _ _ _ _ _ _ _ RU)), Z0 in EC. discriminate. }
  destruct HP as [HK HQ]. clear H. assert (R := integrate_run G U B ch eig argsort del fn a N w w2 w3 W1 Yp Yw Xp Xw ind m n q K FF ER RU HK HQ EF SF). cbv zeta in R.
  rewrite H0 in R. injection R as Emu _ _ Ew. destruct RU as [SYp SYw SXp SXw SI VM VW VI]. assert (PK : 0 < INR K) by (apply lt_0_INR; lia).
  destruct (estimate_fl_ok F ord dord FF (amap (rnd F) Xw) ind q K (fun i => Yw.[i, 0%nat]) V Ho Hd HK HQ SF SXw SI) as (mu' & lb' & ub' & EE & F1 & F2 & F3 & OR & ERR).
  { intros i l Hi Hl. split; [now apply VI|]. split; [unfold amap; cbn [at_]; now rewrite VW|].
    destruct (VF (i * K + l)%nat ltac:(nia)) as (v & E1 & E2 & ->). now apply (HF _ _ _ _ E1). }
  exists Yp, Yw, w1, Xp, q, K, (fun r => FF.[r, 0%nat]), us, mu', lb', ub'. split; [exact EA|]. split; [reflexivity|]. split; [exact HK|]. split; [exact HQ|]. split; [exact SYw|]. split; [exact SXp|].
  split; [congruence|]. split; [exact VF|]. split.
  { unfold integrate_fl. unfold mbind at 1. rewrite (quadrature_rule_rounded F _ _ _ _ _ _ _ _ _ _ _ _ _ _ _ ER).
    unfold mbind at 1, mlift at 1. unfold mbind at 1, mlift at 1. cbn [SimulationRunner_init]. unfold mbind at 1. rewrite EF. unfold mlift. rewrite EE, Ew. reflexivity. }
  split; [exact F1|]. split; [exact F2|]. split; [exact F3|]. split; [exact OR|]. cbv zeta.
  replace mu with (sumf q (fun i => Yw.[i, 0%nat] * (sumf K (fun l => FF.[(i * K + l)%nat, 0%nat]) / INR K))); [exact ERR|].
  rewrite Emu, sumf_prod. apply sumf_ext. intros i Hi.
  rewrite (sumf_ext K (fun l => Xw.[(i * K + l)%nat, 0%nat] * _) (fun l => Yw.[i, 0%nat] / INR K * FF.[(i * K + l)%nat, 0%nat])) by (intros l Hl; now rewrite VW).
  rewrite sumf_scal_l. field. lra.
Qed.
Print Assumptions C115_integrate.

(** av_integrate: only the products and their sum are rounded. *)
Theorem C115_av_integrate : forall F dord (G : gen) (U : Type) B ch eig argsort del (fn : ufun (U := U) (nd R) (nd R)) a N m n W1 (w w' : world G U (nd R)) mu,
  valid F -> dots_all dord -> s_W1 (d_subs (av_domain a)) = Some W1 -> shape W1 = [m; n] ->
  av_integrate B ch eig argsort del (AVFun (IsA fn)) (IsA a) (IsA N) w = (Ok mu, w') ->
  exists Yp Yw w1 q (f : nat -> R) (us : nat -> U) mu',
    av_quadrature_rule B ch eig argsort del a N w = (Ok (Yp, Yw), w1) /\ shape Yp = [q; n] /\ shape Yw = [q; 1%nat] /\
    us 0%nat = usr w1 /\ (forall r, (r < q)%nat -> exists v, fn (rowarr Yp r) (us r) = (Ok v, us (S r)) /\ size v = 1%nat /\ f r = flat v 0) /\
    av_integrate_fl F dord B ch eig argsort del (IsA fn) (IsA a) (IsA N) w = (Ok mu', w') /\
    (q = 0%nat -> mu' = 0) /\
    (let c := (1 + ulp1 F) ^ ddepth (dord q) in
     Rabs (mu' - mu) <= (c - 1) * sumf q (fun i => Rabs (Yw.[i, 0%nat] * f i)) + c * INR q * eta F).
Proof.
  intros F dord G U B ch eig argsort del fn a N m n W1 w w' mu V Hd EW SW H. unfold av_integrate in H.
  apply mbind_ok in H. destruct H as ([Yp Yw] & w1 & ER & H).
  destruct (av_rule_shape _ _ _ _ _ _ _ _ _ _ _ m n W1 _ _ EW SW ER) as (q & SYp & SYw).
  apply mbind_ok in H. destruct H as (FF & w3 & EF & H).
  apply mbind_ok in EF. destruct EF as (fn' & w2 & E & EF). apply mlift_inv in E. destruct E as [E ->]. injection E as <-.
  destruct (C05_run_calls_rows_in_order G U fn Yp _ _ w1 SYp) as (us & U0 & [(F' & w4 & EF' & SF & EW' & VF)|(k & e & w4 & _ & EF' & _)]); rewrite EF in EF'; [|discriminate].
  injection EF' as <- <-.
  assert (ST : shape (tr Yw) = [1%nat; q]) by (unfold tr; cbn [shape mk2]; now rewrite (nrows_shape2 _ _ _ _ SYw), (ncols_shape2 _ _ _ _ SYw)).
  rewrite (npdot2 _ _ 1 q 1 ST SF) in H. apply mbind_ok in H. destruct H as (P & w5 & E & H). apply mlift_inv in E. destruct E as [E ->]. injection E as <-.
  apply mlift_inv in H. destruct H as [H ->].
  assert (EM : mu = sumf q (fun i => Yw.[i, 0%nat] * FF.[i, 0%nat])).
  { unfold get2 in H. cbn in H. injection H as <-. apply sumf_ext. reflexivity. }
  exists Yp, Yw, w1, q, (fun r => FF.[r, 0%nat]), us. eexists. split; [exact ER|]. split; [exact SYp|]. split; [exact SYw|]. split; [exact U0|]. split; [exact VF|]. split.
  { unfold av_integrate_fl. unfold mbind at 1. rewrite ER. unfold mbind at 1, mlift at 1. cbn [SimulationRunner_init]. unfold mbind at 1. rewrite EF. unfold mlift, dot_fl.
    rewrite (ncols_shape2 _ _ _ _ SYw), (ncols_shape2 _ _ _ _ SF), (nrows_shape2 _ _ _ _ SYw), (nrows_shape2 _ _ _ _ SF), Nat.eqb_refl. cbn [andb]. rewrite Nat.eqb_refl. cbn [negb]. reflexivity. }
  split; [intros ->; reflexivity|]. cbv zeta. rewrite EM. destruct q as [|q].
  - cbn [sumf INR]. rewrite Rminus_0_r, Rabs_R0. generalize (eta_pos F). simpl. nra.
  - assert (DL := Hd (S q) ltac:(lia)). assert (DE := dfl_err F V (dord (S q)) (fun i => Yw.[i, 0%nat]) (fun i => FF.[i, 0%nat])). cbv zeta in DE.
    rewrite !(sumr_perm_seq _ _ _ DL), (Permutation_length DL), seq_length in DE. exact DE.
Qed.
Print Assumptions C115_av_integrate.

(** ** The weights do not come back exactly *)
Lemma rnd_rat : forall F x a b s k, x = IZR a / IZR b * bpow s -> (0 < b)%Z -> (f_emin F <= s)%Z -> (1 <= f_prec F)%Z ->
  (2 ^ (f_prec F - 1) * b <= a)%Z -> (a < 2 ^ f_prec F * b)%Z -> (2 * Z.abs (a - k * b) < b)%Z -> rnd F x = IZR k * bpow s.
Proof.
  intros F x a b s k E Hb Hs Hp H1 H2 H3. assert (B := bpow_pos s). assert (Pb : 0 < IZR b) by now apply IZR_lt.
  assert (L1 : IZR (2 ^ (f_prec F - 1)) <= IZR a / IZR b).
  { apply Rmult_le_reg_r with (IZR b); auto. unfold Rdiv. rewrite Rmult_assoc, Rinv_l, Rmult_1_r by lra. rewrite <- mult_IZR. now apply IZR_le. }
  assert (L2 : IZR a / IZR b < IZR (2 ^ f_prec F)).
  { apply Rmult_lt_reg_r with (IZR b); auto. unfold Rdiv. rewrite Rmult_assoc, Rinv_l, Rmult_1_r by lra. rewrite <- mult_IZR. now apply IZR_lt. }
  assert (P0 : 0 < IZR (2 ^ (f_prec F - 1))) by (apply IZR_lt, Z.pow_pos_nonneg; lia).
  replace s with ((s + f_prec F - 1) - f_prec F + 1)%Z at 1 by lia. apply rnd_eval.
  - rewrite E, Rabs_pos_eq by (apply Rmult_le_pos; lra).
    replace (s + f_prec F - 1)%Z with ((f_prec F - 1) + s)%Z by lia. replace (f_prec F - 1 + s + 1)%Z with (f_prec F + s)%Z by lia.
    rewrite !bpow_add, (bpow_IZR (f_prec F - 1)), (bpow_IZR (f_prec F)) by lia. split; [apply Rmult_le_compat_r; [lra|exact L1]|apply Rmult_lt_compat_r; [exact B|exact L2]].
  - lia.
  - replace (s + f_prec F - 1 - f_prec F + 1)%Z with s by lia. rewrite E. replace (IZR a / IZR b * bpow s / bpow s) with (IZR a / IZR b) by (field; lra).
    apply near_lt. replace (IZR a / IZR b - IZR k) with (IZR (a - k * b) / IZR b) by (rewrite minus_IZR, mult_IZR; field; lra).
    unfold Rdiv. rewrite Rabs_mult, Rabs_inv, (Rabs_pos_eq (IZR b)), <- abs_IZR by lra.
    apply Rmult_lt_reg_r with (IZR b); auto. rewrite Rmult_assoc, Rinv_l, Rmult_1_r by lra.
    apply IZR_lt in H3. rewrite mult_IZR in H3. lra.
Qed.

(** the order in which NumPy adds: eight at a time for ten entries *)
Fixpoint comb (k : nat) : stree := match k with O | S O => Leaf 0 | S k' => Node (comb k') (Leaf k') end.
Definition np_order (n : nat) : stree :=
  if Nat.eqb n 10 then
    Node (Node (Node (Node (Node (Leaf 0) (Leaf 1)) (Node (Leaf 2) (Leaf 3))) (Node (Node (Leaf 4) (Leaf 5)) (Node (Leaf 6) (Leaf 7)))) (Leaf 8)) (Leaf 9)
  else comb n.
Fixpoint dcomb (k : nat) : dtree := match k with O | S O => Prod 0 | S k' => Add (dcomb k') (Prod k') end.

Lemma np_order_all : adds_all np_order.
Proof.
  intros n Hn. unfold np_order. destruct (Nat.eqb_spec n 10) as [->|_]; [reflexivity|].
  assert (E : sleaves (comb n) = seq 0 n); [|rewrite E; reflexivity].
  induction n as [|[|k] IH]; [lia|reflexivity|]. change (sleaves (comb (S (S k)))) with (sleaves (comb (S k)) ++ [S k]). rewrite IH by lia. now rewrite (seq_S (S k)).
Qed.
Lemma dcomb_all : dots_all dcomb.
Proof.
  intros n Hn. assert (E : dleaves (dcomb n) = seq 0 n); [|rewrite E; reflexivity].
  induction n as [|[|k] IH]; [lia|reflexivity|]. change (dleaves (dcomb (S (S k)))) with (dleaves (dcomb (S k)) ++ [S k]). rewrite IH by lia. now rewrite (seq_S (S k)).
Qed.

(** a mean of ten equal values in that order *)
Lemma mean_ten : forall F v, valid F -> fmt F v -> mean_fl F np_order (repeat v 10) = rnd F (rnd F (rnd F (8 * v + v) + v) / 10).
Proof.
  intros F v V Fv. unfold mean_fl. rewrite repeat_length. unfold np_order. cbn [Nat.eqb sfl nth repeat].
  assert (F2 := fmt_double F v Fv). assert (F4 := fmt_double F _ F2).
  assert (E2 : rnd F (v + v) = 2 * v) by (replace (v + v) with (2 * v) by ring; now apply rnd_double).
  assert (E4 : rnd F (2 * v + 2 * v) = 4 * v) by (replace (2 * v + 2 * v) with (2 * (2 * v)) by ring; rewrite rnd_double by auto; ring).
  assert (E8 : rnd F (4 * v + 4 * v) = 8 * v) by (replace (4 * v + 4 * v) with (2 * (2 * (2 * v))) by ring; rewrite rnd_double by auto; ring).
  rewrite E2, E4, E8. replace (INR 10) with 10 by (simpl; lra). reflexivity.
Qed.

(** Two nodes with weights 3/10 and 7/10 (the nearest doubles, whose rounded
    sum is 1), the constant 1 and the default NMC = 10: the weight that
    integrate uses for the first node is smaller than the one of the rule, the
    estimate is 1 - 2^-53, the two bounds coincide with it, and they leave out
    both 1 and the exact sum of the two weights. *)
Theorem C115_constant_refuted : exists w1 w2 A Xw ind mu,
  fmt binary64 w1 /\ fmt binary64 w2 /\ Rabs (w1 - 3 / 10) <= bpow (-54) / 2 /\ Rabs (w2 - 7 / 10) <= bpow (-53) / 2 /\
  shape A = [20; 1]%nat /\ shape Xw = [20; 1]%nat /\ shape ind = [20; 1]%nat /\
  (forall r, (r < 20)%nat -> A.[r, 0%nat] = 1 /\ ind.[r, 0%nat] = INR (r / 10) /\ Xw.[r, 0%nat] = rnd binary64 ((if Nat.ltb r 10 then w1 else w2) / 10)) /\
  adds_all np_order /\ dots_all dcomb /\
  estimate_fl binary64 np_order dcomb A Xw ind 10 = Ok (mu, mu, mu) /\
  mu = 1 - bpow (-53) /\ mu < w1 + w2 < 1.
Proof.
  assert (V := valid64). set (c := bpow (-54)). assert (C0 : 0 < c) by apply bpow_pos.
  set (w1 := IZR 5404319552844595 * c). set (w2 := IZR 6305039478318694 * bpow (-53)).
  assert (B1 : forall z, bpow (z + 1) = 2 * bpow z) by (intros; apply bpow_S).
  assert (E53 : bpow (-53) = 2 * c) by (unfold c; rewrite <- B1; reflexivity).
  assert (E51 : bpow (-51) = 8 * c) by (replace (-51)%Z with (-54 + 1 + 1 + 1)%Z by lia; rewrite !B1; fold c; ring).
  assert (E50 : bpow (-50) = 16 * c) by (replace (-50)%Z with (-54 + 1 + 1 + 1 + 1)%Z by lia; rewrite !B1; fold c; ring).
  assert (E58 : bpow (-58) = c / 16) by (unfold c; replace (-54)%Z with (-58 + 1 + 1 + 1 + 1)%Z by lia; rewrite !B1; field).
  assert (E56 : bpow (-56) = c / 4) by (unfold c; replace (-54)%Z with (-56 + 1 + 1)%Z by lia; rewrite !B1; field).
  assert (C1 : IZR (2 ^ 54) * c = 1) by (unfold c; rewrite <- bpow_IZR by lia; rewrite <- bpow_add; reflexivity).
  assert (F1 : fmt binary64 w1) by (apply (fmt_by _ 5404319552844595 (-54)); reflexivity).
  assert (F2 : fmt binary64 w2) by (apply (fmt_by _ 6305039478318694 (-53)); reflexivity).
  assert (RR : forall x a b s k, x = IZR a / IZR b * bpow s ->
    ((0 <? b) && (-1074 <=? s) && (2 ^ 52 * b <=? a) && (a <? 2 ^ 53 * b) && (2 * Z.abs (a - k * b) <? b))%Z%bool = true -> rnd binary64 x = IZR k * bpow s).
  { intros x a b s k Ex H. apply andb_prop in H. destruct H as [H H5]. apply andb_prop in H. destruct H as [H H4]. apply andb_prop in H. destruct H as [H H3]. apply andb_prop in H. destruct H as [H1 H2].
    apply Z.ltb_lt in H1, H4, H5. apply Z.leb_le in H2, H3. apply (rnd_rat binary64 x a b s k Ex); simpl f_prec; simpl f_emin; try assumption; lia. }
  assert (Q1 : rnd binary64 (w1 / 10) = IZR 8646911284551352 * bpow (-58)).
  { apply (RR _ (5404319552844595 * 16) 10)%Z; [|reflexivity]. rewrite E58. unfold w1. rewrite mult_IZR. field. }
  assert (P1 : rnd binary64 (IZR 8646911284551352 * bpow (-58) * 10) = w1).
  { apply (RR _ (8646911284551352 * 10) 16)%Z; [|reflexivity]. rewrite E58. fold c. rewrite mult_IZR. field. }
  assert (N1 : mean_fl binary64 np_order (repeat w1 10) = w1 - c).
  { rewrite (mean_ten _ _ V F1).
    rewrite (RR (8 * w1 + w1) (5404319552844595 * 9)%Z 8%Z (-51)%Z 6079859496950169%Z); [|rewrite E51; unfold w1; rewrite mult_IZR; field|reflexivity].
    rewrite (RR (IZR 6079859496950169 * bpow (-51) + w1) (6079859496950169 * 8 + 5404319552844595)%Z 8%Z (-51)%Z 6755399441055743%Z); [|rewrite E51; unfold w1; rewrite plus_IZR, mult_IZR; field|reflexivity].
    rewrite (RR (IZR 6755399441055743 * bpow (-51) / 10) (6755399441055743 * 8)%Z 10%Z (-54)%Z 5404319552844594%Z); [|rewrite E51; fold c; rewrite mult_IZR; field|reflexivity].
    fold c. unfold w1. replace 5404319552844595%Z with (5404319552844594 + 1)%Z by reflexivity. rewrite plus_IZR. ring. }
  assert (Q2 : rnd binary64 (w2 / 10) = IZR 5044031582654955 * bpow (-56)).
  { apply (RR _ (6305039478318694 * 8) 10)%Z; [|reflexivity]. unfold w2. rewrite E56, E53, mult_IZR. field. }
  assert (P2 : rnd binary64 (IZR 5044031582654955 * bpow (-56) * 10) = w2).
  { apply (RR _ (5044031582654955 * 10) 8)%Z; [|reflexivity]. rewrite E56, E53, mult_IZR. field. }
  assert (N2 : mean_fl binary64 np_order (repeat w2 10) = w2).
  { rewrite (mean_ten _ _ V F2).
    rewrite (RR (8 * w2 + w2) (6305039478318694 * 9)%Z 8%Z (-50)%Z 7093169413108531%Z); [|unfold w2; rewrite E50, E53, mult_IZR; field|reflexivity].
    rewrite (RR (IZR 7093169413108531 * bpow (-50) + w2) (7093169413108531 * 8 + 6305039478318694)%Z 8%Z (-50)%Z 7881299347898368%Z); [|unfold w2; rewrite E50, E53, plus_IZR, mult_IZR; field|reflexivity].
    apply (RR (IZR 7881299347898368 * bpow (-50) / 10) (7881299347898368 * 8)%Z 10%Z (-53)%Z 6305039478318694%Z); [rewrite E50, E53, mult_IZR; field|reflexivity]. }
  assert (FZ : forall z : Z, (Z.abs z <=? 2 ^ 53)%Z = true -> fmt binary64 (IZR z)).
  { intros z Hz. apply (fmt_by _ z 0); [rewrite bpow_0; ring|exact Hz|reflexivity]. }
  assert (N3 : mean_fl binary64 np_order (repeat 1 10) = 1).
  { rewrite (mean_ten _ _ V (FZ 1%Z eq_refl)). replace (8 * 1 + 1) with 9 by ring. rewrite (fmt_fix _ V 9 (FZ 9%Z eq_refl)). replace (9 + 1) with 10 by ring.
    rewrite (fmt_fix _ V 10 (FZ 10%Z eq_refl)). replace (10 / 10) with 1 by field. apply rnd_1; auto. }
  assert (N4 : var_fl binary64 np_order (repeat 1 10) = 0).
  { unfold var_fl. rewrite N3. replace (map _ (repeat 1 10)) with (repeat 0 10).
    - rewrite (mean_ten _ _ V (FZ 0%Z eq_refl)). replace (8 * 0 + 0) with 0 by ring. rewrite rnd_0, Rplus_0_r, rnd_0. unfold Rdiv. rewrite Rmult_0_l. apply rnd_0.
    - cbn [repeat map]. rewrite Rminus_eq_0, rnd_0, Rmult_0_l, rnd_0. reflexivity. }
  set (A := mk2 20 1 (fun _ _ => 1) : nd R). set (ind := mk2 20 1 (fun r _ => INR (r / 10)) : nd R).
  set (Xw := mk2 20 1 (fun r _ => rnd binary64 ((if Nat.ltb r 10 then w1 else w2) / 10)) : nd R).
  set (mu := 1 - bpow (-53)).
  exists w1, w2, A, Xw, ind, mu. split; [exact F1|]. split; [exact F2|].
  split; [|split].
  { fold c. replace (w1 - 3 / 10) with (- (/ 5 * c)); [rewrite Rabs_Ropp, Rabs_pos_eq; lra|].
    transitivity (w1 - 3 / 10 * (IZR (2 ^ 54) * c)); [|rewrite C1; ring]. unfold w1. change (2 ^ 54)%Z with 18014398509481984%Z. field. }
  { replace (w2 - 7 / 10) with (- (2 / 5 * bpow (-53))); [rewrite Rabs_Ropp, Rabs_pos_eq; generalize (bpow_pos (-53)); lra|].
    transitivity (w2 - 7 / 10 * (IZR (2 ^ 54) * c)); [|rewrite C1; ring]. unfold w2. rewrite E53. change (2 ^ 54)%Z with 18014398509481984%Z. field. }
  do 3 (split; [reflexivity|]). split; [intros r _; auto|]. split; [exact np_order_all|]. split; [exact dcomb_all|]. split.
  - unfold estimate_fl. set (T := amap (fun x => rnd binary64 (x * 10)) Xw).
    assert (HI : forall i l, (i < 2)%nat -> (l < 10)%nat -> ind.[(i * 10 + l)%nat, 0%nat] = INR i).
    { intros i l _ Hl. unfold ind. rewrite at_mk2. f_equal. rewrite Nat.div_add_l by lia. rewrite Nat.div_small by lia. lia. }
    destruct (cond_exp_fl_design binary64 np_order A ind 2 10 eq_refl eq_refl HI ltac:(lia) ltac:(lia)) as (Ef & Vf & X1 & SE & SV & D1).
    destruct (cond_exp_fl_design binary64 np_order T ind 2 10 eq_refl eq_refl HI ltac:(lia) ltac:(lia)) as (w & V2 & X2 & SW & _ & D2).
    rewrite X1. cbn [rbind]. rewrite X2. cbn [rbind]. rewrite (dot_fl_ok _ dcomb Ef w 2 SE SW) by lia. cbn [rbind].
    rewrite (dot_fl_ok _ dcomb Vf (amap (fun x => rnd binary64 (x * x)) w) 2 SV SW) by lia. cbn [rbind dcomb dfl].
    assert (BA : forall i, block A 10 i = repeat 1 10) by reflexivity.
    assert (BT : forall i l, (i < 2)%nat -> (l < 10)%nat -> T.[(i * 10 + l)%nat, 0%nat] = (if Nat.eqb i 0 then w1 else w2)).
    { intros i l Hi Hl. change (T.[(i * 10 + l)%nat, 0%nat]) with (rnd binary64 (rnd binary64 ((if Nat.ltb (i * 10 + l) 10 then w1 else w2) / 10) * 10)).
      destruct (Nat.ltb_spec (i * 10 + l) 10), (Nat.eqb_spec i 0); try lia; [rewrite Q1; exact P1|rewrite Q2; exact P2]. }
    assert (BB : forall i, (i < 2)%nat -> block T 10 i = repeat (if Nat.eqb i 0 then w1 else w2) 10).
    { intros i Hi. unfold block. cbn [seq map repeat]. rewrite !BT by lia. reflexivity. }
    destruct (D1 0%nat ltac:(lia)) as [-> ->]. destruct (D1 1%nat ltac:(lia)) as [-> ->]. rewrite !BA, N3, N4, !Rmult_0_l, rnd_0, Rplus_0_r, rnd_0.
    rewrite (proj1 (D2 0%nat ltac:(lia))), (proj1 (D2 1%nat ltac:(lia))), !BB by lia. cbn [Nat.eqb]. rewrite N1, N2, !Rmult_1_l.
    unfold Rdiv at 1. rewrite Rmult_0_l, rnd_0. unfold sqrt_fl. destruct (Rlt_dec 0 0) as [C|_]; [lra|]. cbn [rbind]. rewrite sqrt_0, rnd_0, Rmult_0_r, rnd_0.
    assert (F1' : fmt binary64 (w1 - c)).
    { apply (fmt_by _ 5404319552844594 (-54)); [|reflexivity|reflexivity]. fold c. unfold w1. replace 5404319552844595%Z with (5404319552844594 + 1)%Z by reflexivity. rewrite plus_IZR. ring. }
    rewrite (fmt_fix _ V _ F1'), (fmt_fix _ V _ F2).
    assert (EM : w1 - c + w2 = mu). { unfold mu. rewrite <- C1, E53. unfold w1, w2. rewrite E53. change (2 ^ 54)%Z with 18014398509481984%Z. ring. }
    assert (FM : fmt binary64 mu).
    { apply (fmt_by _ 9007199254740991 (-53)); [|reflexivity|reflexivity]. unfold mu. rewrite <- C1, E53. change (2 ^ 54)%Z with 18014398509481984%Z. ring. }
    rewrite EM, (fmt_fix _ V _ FM), Rminus_0_r, Rplus_0_r, (fmt_fix _ V _ FM). reflexivity.
  - split; [reflexivity|].
    assert (ES : w1 + w2 = 1 - c). { rewrite <- C1. unfold w1, w2. rewrite E53. change (2 ^ 54)%Z with 18014398509481984%Z. ring. }
    rewrite ES. unfold mu. rewrite E53. lra.
Qed.
Print Assumptions C115_constant_refuted.

(** the constant 1 over three Gaussian variables, one node of weight 1 and the
    default NMC = 10: both arithmetics return 1 with bounds of zero width *)
Example C115_case : exists w',
  let noh := fun _ : nd R => Err ValueError in let nod := fun _ : nd R => Err ValueError in
  let w := toy_world tt : world toy_gen unit (nd R) in
  valid binary64 /\ adds_all np_order /\ dots_all dcomb /\ frame (d_subs (av_domain map3)) 3 1 W3 W31 W32 /\ invertible backend_ref map3 /\
  integrate backend_ref noh eigh_ref argsort_ref nod (IsA (pure (fun _ => 1))) (IsA map3) (IsA 1%Z) (IsA 10%Z) w = (Ok (1, 1, 1), w') /\
  integrate_fl binary64 np_order dcomb backend_ref noh eigh_ref argsort_ref nod (IsA (pure (fun _ => 1))) (IsA map3) (IsA 1%Z) (IsA 10%Z) w = (Ok (1, 1, 1), w').
Proof.
  set (w := toy_world tt : world toy_gen unit (nd R)). assert (V := valid64).
  assert (exists Yp Yw, gauss_hermite eigh_ref argsort_ref (NList [1%Z]) = Ok (Yp, Yw) /\ shape Yp = [1; 1]%nat /\ shape Yw = [1; 1]%nat /\ Yw.[0%nat, 0%nat] = 1) as (Yp & Yw & EG & SYp & SYw & VW).
  { do 2 eexists. split; [reflexivity|]. split; [reflexivity|]. split; [reflexivity|]. cbn; lra. }
  assert (ER : av_quadrature_rule backend_ref (fun _ => Err ValueError) eigh_ref argsort_ref (fun _ => Err ValueError) map3 1 w = (Ok (Yp, Yw), w)).
  { unfold av_quadrature_rule, map3. cbn [av_domain d_subs sub3 s_W1 need d_kind]. unfold mbind at 1, mlift at 1. unfold mbind at 1, mlift at 1.
    change (shape2 W31) with (Ok (A := nat * nat) (3%nat, 1%nat)). cbv iota beta. rewrite (roots_repeat 1 1 1 (iroot_floor 1 1 1 ltac:(lia) ltac:(lia) ltac:(simpl; lia))). cbn [rbind repeat]. rewrite EG. reflexivity. }
  destruct (C21_unbounded_inverse toy_gen unit (nd R) backend_ref (AVD DUnbounded sub3 3 1 None None None None) 3 1 W3 W31 W32 Yp 1 10 w frame3 SYp) as (Xp & ind & EI & IO).
  set (w2 := set_rng w _) in EI. change (Z.of_nat 10) with 10%Z in EI.
  assert (EQ : exists Xw, quadrature_rule backend_ref (fun _ => Err ValueError) eigh_ref argsort_ref (fun _ => Err ValueError) (IsA map3) (IsA 1%Z) (IsA 10%Z) w = (Ok (Xp, Xw, ind), w2)).
  { unfold quadrature_rule. unfold mbind at 1. rewrite ER. unfold mbind at 1. unfold map3. rewrite EI. eexists. reflexivity. }
  destruct EQ as (Xw & EQ). destruct (rule_returns _ _ _ _ _ _ _ map3 _ _ _ _ _ _ _ _ _ _ _ _ frame3 (or_introl eq_refl) EQ) as (Yp' & Yw' & w1 & q & K & ER' & EK & RU).
  assert (K = 10%nat) by lia. subst K. rewrite ER in ER'. injection ER' as <- <- <-. assert (q = 1%nat) by (assert (A := ru_Yw _ _ _ _ _ _ _ _ _ _ _ RU); rewrite SYw in A; now injection A). subst q.
  destruct (sim_run_pure toy_gen unit (fun _ => 1) Xp 10 3 w2 (ru_Xp _ _ _ _ _ _ _ _ _ _ _ RU)) as (FF & w3 & EFF & SF & VF).
  assert (R := integrate_run toy_gen unit backend_ref (fun _ => Err ValueError) eigh_ref argsort_ref (fun _ => Err ValueError) (pure (fun _ => 1)) map3 1 w w2 w3 W31 Yp Yw Xp Xw ind 3 1 1 10 FF EQ RU ltac:(lia) ltac:(lia) EFF SF).
  cbv zeta in R. change (1 * 10)%nat with 10%nat in R.
  assert (XW : forall l, (l < 10)%nat -> Xw.[l, 0%nat] = / 10). { intros l Hl. eapply eq_trans; [apply (ru_w _ _ _ _ _ _ _ _ _ _ _ RU 0%nat l); lia|]. rewrite VW. simpl INR. lra. }
  assert (M1 : sumf 10 (fun r => Xw.[r, 0%nat] * FF.[r, 0%nat]) = 1).
  { rewrite (sumf_ext 10 _ (fun _ => / 10)) by (intros r Hr; rewrite XW, VF by auto; ring). rewrite sumf_const. simpl INR. lra. }
  assert (V0 : sumf 1 (fun i => Yw.[i, 0%nat] * Yw.[i, 0%nat] * gvar (fun r => FF.[r, 0%nat]) 10 i) = 0).
  { apply sumf_zero. intros i Hi. rewrite (proj2 (gvar_zero _ 10 i ltac:(lia))); [ring|]. intros l l' Hl Hl'. rewrite !VF by lia. reflexivity. }
  rewrite M1, V0 in R. unfold Rdiv in R. rewrite (Rmult_0_l (/ INR 10)), sqrt_0, Rmult_0_r, Rminus_0_r, Rplus_0_r in R. change (Z.of_nat 10) with 10%Z in R.
  exists w3. cbv zeta. split; [exact V|]. split; [exact np_order_all|]. split; [exact dcomb_all|]. split; [exact frame3|]. split; [exact (or_introl eq_refl)|]. split; [exact R|].
  unfold integrate_fl. unfold mbind at 1. rewrite (quadrature_rule_rounded binary64 _ _ _ _ _ _ _ _ _ _ _ _ _ _ _ EQ).
  unfold mbind at 1, mlift at 1. unfold mbind at 1, mlift at 1. cbn [SimulationRunner_init]. unfold mbind at 1. rewrite EFF. unfold mlift.
  assert (SX : shape (amap (rnd binary64) Xw) = [10; 1]%nat) by exact (ru_Xw _ _ _ _ _ _ _ _ _ _ _ RU). assert (SI : shape ind = [10; 1]%nat) by exact (ru_ind _ _ _ _ _ _ _ _ _ _ _ RU).
  assert (HI : forall i l, (i < 1)%nat -> (l < 10)%nat -> ind.[(i * 10 + l)%nat, 0%nat] = INR i) by exact (ru_i _ _ _ _ _ _ _ _ _ _ _ RU).
  assert (FZ : forall z : Z, (Z.abs z <=? 2 ^ 53)%Z = true -> fmt binary64 (IZR z)).
  { intros z Hz. apply (fmt_by _ z 0); [rewrite bpow_0; ring|exact Hz|reflexivity]. }
  assert (N3 : mean_fl binary64 np_order (repeat 1 10) = 1).
  { rewrite (mean_ten _ _ V (FZ 1%Z eq_refl)). replace (8 * 1 + 1) with 9 by ring. rewrite (fmt_fix _ V 9 (FZ 9%Z eq_refl)). replace (9 + 1) with 10 by ring.
    rewrite (fmt_fix _ V 10 (FZ 10%Z eq_refl)). replace (10 / 10) with 1 by field. apply rnd_1; auto. }
  assert (N4 : var_fl binary64 np_order (repeat 1 10) = 0).
  { unfold var_fl. rewrite N3. replace (map _ (repeat 1 10)) with (repeat 0 10).
    - rewrite (mean_ten _ _ V (FZ 0%Z eq_refl)). replace (8 * 0 + 0) with 0 by ring. rewrite rnd_0, Rplus_0_r, rnd_0. unfold Rdiv. rewrite Rmult_0_l. apply rnd_0.
    - cbn [repeat map]. rewrite Rminus_eq_0, rnd_0, Rmult_0_l, rnd_0. reflexivity. }
  assert (T1 : rnd binary64 (rnd binary64 (/ 10) * 10) = 1).
  { assert (B56 : IZR (2 ^ 56) * bpow (-56) = 1) by (rewrite <- bpow_IZR by lia; rewrite <- bpow_add; reflexivity).
    rewrite (rnd_rat binary64 (/ 10) 72057594037927936 10 (-56) 7205759403792794); try (simpl; lia).
    - rewrite (rnd_rat binary64 _ 72057594037927940 16 (-52) 4503599627370496); try (simpl; lia).
      + change 4503599627370496%Z with (2 ^ 52)%Z. symmetry. exact b0_52.
      + replace (-52)%Z with (-56 + 1 + 1 + 1 + 1)%Z by lia. rewrite !bpow_S. field.
    - transitivity (/ 10 * (IZR (2 ^ 56) * bpow (-56))); [rewrite B56; ring|]. change (2 ^ 56)%Z with 72057594037927936%Z. field. }
  unfold estimate_fl. set (T := amap (fun x => rnd binary64 (x * 10)) (amap (rnd binary64) Xw)).
  assert (SF' : shape FF = [(1 * 10)%nat; 1%nat]) by exact SF.
  destruct (cond_exp_fl_design binary64 np_order FF ind 1 10 SF' SI HI ltac:(lia) ltac:(lia)) as (Ef & Vf & X1 & SE & SV & D1).
  destruct (cond_exp_fl_design binary64 np_order T ind 1 10 SX SI HI ltac:(lia) ltac:(lia)) as (wt & V2 & X2 & SW & _ & D2).
  rewrite X1. cbn [rbind]. rewrite X2. cbn [rbind]. rewrite (dot_fl_ok _ dcomb Ef wt 1 SE SW) by lia. cbn [rbind].
  rewrite (dot_fl_ok _ dcomb Vf (amap (fun x => rnd binary64 (x * x)) wt) 1 SV SW) by lia. cbn [rbind dcomb dfl].
  assert (BA : block FF 10 0 = repeat 1 10) by (unfold block; cbn [seq map repeat]; rewrite !VF by lia; reflexivity).
  assert (BT : forall l, (l < 10)%nat -> T.[l, 0%nat] = 1).
  { intros l Hl. change (T.[l, 0%nat]) with (rnd binary64 (rnd binary64 (Xw.[l, 0%nat]) * 10)). rewrite XW by auto. exact T1. }
  assert (BB : block T 10 0 = repeat 1 10) by (unfold block; cbn [seq map repeat]; rewrite !BT by lia; reflexivity).
  destruct (D1 0%nat ltac:(lia)) as [-> ->]. rewrite (proj1 (D2 0%nat ltac:(lia))), BA, BB, N3, N4, !Rmult_0_l, rnd_0.
  unfold Rdiv at 1. rewrite Rmult_0_l, rnd_0. unfold sqrt_fl. destruct (Rlt_dec 0 0) as [C|_]; [lra|]. cbn [rbind]. rewrite sqrt_0, rnd_0, Rmult_0_r, rnd_0, Rmult_1_l, (rnd_1 _ V), Rminus_0_r, Rplus_0_r, (rnd_1 _ V). reflexivity.
Qed.

(** a case with bounds of positive width in which only the literal 1.96 and the
    last two operations are rounded: one node of weight 1 and the values 0, 2,
    0, 2 give the mean 1 and the variance 1 *)
Example C115_width_case : exists A Xw ind, shape A = [4; 1]%nat /\
  (forall r, (r < 4)%nat -> A.[r, 0%nat] = (if Nat.even r then 0 else 2) /\ Xw.[r, 0%nat] = rnd binary64 (1 / 4) /\ ind.[r, 0%nat] = 0) /\
  let h := rnd binary64 (196 / 100) * sqrt (/ 4) in
  estimate_fl binary64 np_order dcomb A Xw ind 4 = Ok (1, rnd binary64 (1 - h), rnd binary64 (1 + h)) /\
  Rabs (h - 98 / 100) <= bpow (-53) /\ rnd binary64 (1 - h) < 1 < rnd binary64 (1 + h).
Proof.
  assert (V := valid64). assert (B1 : forall z, bpow (z + 1) = 2 * bpow z) by (intros; apply bpow_S).
  assert (FZ : forall z : Z, (Z.abs z <=? 2 ^ 53)%Z = true -> rnd binary64 (IZR z) = IZR z).
  { intros z Hz. apply fmt_fix; auto. apply (fmt_by _ z 0); [rewrite bpow_0; ring|exact Hz|reflexivity]. }
  assert (E2 : bpow (-2) = / 4) by (assert (Q := bpow_0); change 0%Z with (-2 + 1 + 1)%Z in Q; rewrite !B1 in Q; lra).
  assert (E1 : bpow (-1) = / 2) by (change (-1)%Z with (-2 + 1)%Z; rewrite B1, E2; field).
  assert (F4 : rnd binary64 (1 / 4) = / 4) by (replace (1 / 4) with (/ 4) by field; apply fmt_fix; auto; apply (fmt_by _ 1 (-2)); [rewrite E2; field|reflexivity|reflexivity]).
  assert (F2 : rnd binary64 (/ 2) = / 2) by (apply fmt_fix; auto; apply (fmt_by _ 1 (-1)); [rewrite E1; field|reflexivity|reflexivity]).
  set (A := mk2 4 1 (fun r _ => if Nat.even r then 0 else 2) : nd R). set (Xw := mk2 4 1 (fun _ _ => rnd binary64 (1 / 4)) : nd R). set (ind := mk2 4 1 (fun _ _ => 0) : nd R).
  exists A, Xw, ind. split; [reflexivity|]. split; [intros r _; auto|]. cbv zeta.
  assert (SQ : sqrt (/ 4) = / 2) by (replace (/ 4) with (/ 2 * / 2) by field; apply sqrt_square; lra). rewrite SQ.
  set (c := bpow (-52)). assert (C0 : 0 < c) by apply bpow_pos.
  assert (C1 : 1 = IZR 4503599627370496 * c) by exact b0_52.
  assert (E196 : rnd binary64 (196 / 100) = IZR 8827055269646172 * c).
  { apply (rnd_rat binary64 _ (4503599627370496 * 196) 100); try (simpl; lia). fold c. rewrite mult_IZR. transitivity (196 / 100 * 1); [ring|]. rewrite C1 at 1. field. }
  assert (EH : rnd binary64 (rnd binary64 (196 / 100) * / 2) = rnd binary64 (196 / 100) * / 2).
  { apply fmt_fix; auto. rewrite E196. apply (fmt_by _ 8827055269646172 (-53)); [|reflexivity|reflexivity].
    unfold c. change (-52)%Z with (-53 + 1)%Z. rewrite B1. field. }
  split.
  - unfold estimate_fl. set (T := amap (fun x => rnd binary64 (x * 4)) Xw).
    assert (HI : forall i l, (i < 1)%nat -> (l < 4)%nat -> ind.[(i * 4 + l)%nat, 0%nat] = INR i) by (intros i l Hi _; replace i with 0%nat by lia; reflexivity).
    destruct (cond_exp_fl_design binary64 np_order A ind 1 4 eq_refl eq_refl HI ltac:(lia) ltac:(lia)) as (Ef & Vf & X1 & SE & SV & D1).
    destruct (cond_exp_fl_design binary64 np_order T ind 1 4 eq_refl eq_refl HI ltac:(lia) ltac:(lia)) as (w & V2 & X2 & SW & _ & D2).
    rewrite X1. cbn [rbind]. rewrite X2. cbn [rbind]. rewrite (dot_fl_ok _ dcomb Ef w 1 SE SW) by lia. cbn [rbind].
    rewrite (dot_fl_ok _ dcomb Vf (amap (fun x => rnd binary64 (x * x)) w) 1 SV SW) by lia. cbn [rbind dcomb dfl].
    change ((amap (fun x => rnd binary64 (x * x)) w).[0%nat, 0%nat]) with (rnd binary64 (w.[0%nat, 0%nat] * w.[0%nat, 0%nat])).
    destruct (D1 0%nat ltac:(lia)) as [-> ->]. rewrite (proj1 (D2 0%nat ltac:(lia))).
    assert (BA : block A 4 0 = [0; 2; 0; 2]) by reflexivity.
    assert (BT : block T 4 0 = [1; 1; 1; 1]).
    { assert (T1 : forall l, T.[l, 0%nat] = 1) by (intros l; change (T.[l, 0%nat]) with (rnd binary64 (rnd binary64 (1 / 4) * 4)); rewrite F4; replace (/ 4 * 4) with 1 by field; apply rnd_1; auto).
      unfold block. cbn [seq map]. rewrite !T1. reflexivity. }
    assert (M4 : forall a b c d e : Z, (a + b + c + d = 4 * e)%Z -> (Z.abs (a + b) <=? 2 ^ 53)%Z = true -> (Z.abs (a + b + c) <=? 2 ^ 53)%Z = true -> (Z.abs (a + b + c + d) <=? 2 ^ 53)%Z = true -> (Z.abs e <=? 2 ^ 53)%Z = true ->
      mean_fl binary64 np_order [IZR a; IZR b; IZR c; IZR d] = IZR e).
    { intros a b c' d e Hs H1 H2 H3 H4. unfold mean_fl, np_order. cbn [List.length Nat.eqb comb sfl nth]. rewrite <- plus_IZR, (FZ _ H1), <- plus_IZR, (FZ _ H2), <- plus_IZR, (FZ _ H3), Hs, mult_IZR.
      replace (INR 4) with 4 by (simpl; lra). replace (4 * IZR e / 4) with (IZR e) by field. now apply FZ. }
    assert (ME : mean_fl binary64 np_order [0; 2; 0; 2] = 1) by (apply (M4 0 2 0 2 1)%Z; reflexivity).
    assert (MO : mean_fl binary64 np_order [1; 1; 1; 1] = 1) by (apply (M4 1 1 1 1 1)%Z; reflexivity).
    assert (VA : var_fl binary64 np_order [0; 2; 0; 2] = 1).
    { unfold var_fl. rewrite ME. cbn [map]. replace (0 - 1) with (-1) by ring. replace (2 - 1) with 1 by ring. rewrite (FZ (-1)%Z eq_refl), (rnd_1 _ V). replace (-1 * -1) with 1 by ring. rewrite Rmult_1_l, (rnd_1 _ V). exact MO. }
    rewrite BA, BT, ME, MO, VA, !Rmult_1_l, !(rnd_1 _ V), F4. unfold sqrt_fl. destruct (Rlt_dec (/ 4) 0) as [X|_]; [lra|]. cbn [rbind]. rewrite SQ, F2, EH. reflexivity.
  - rewrite E196. split.
    + replace (98 / 100) with (98 / 100 * (IZR 4503599627370496 * c)) by (rewrite <- C1; ring).
      replace (bpow (-53)) with (c / 2) by (unfold c; change (-52)%Z with (-53 + 1)%Z; rewrite B1; field).
      replace (IZR 8827055269646172 * c * / 2 - 98 / 100 * (IZR 4503599627370496 * c)) with (- (2 / 25 * c)) by field. rewrite Rabs_Ropp, Rabs_pos_eq; lra.
    + set (h := IZR 8827055269646172 * c * / 2).
      assert (L1 : / 2 < h < 1).
      { unfold h. lra. }
      assert (HR : rnd binary64 (/ 2) = / 2) by exact F2.
      assert (HT : rnd binary64 (3 / 2) = 3 / 2) by (apply fmt_fix; auto; apply (fmt_by _ 3 (-1)); [rewrite E1; field|reflexivity|reflexivity]).
      assert (X1 := rnd_mono binary64 V (1 - h) (/ 2) ltac:(lra)). assert (X2 := rnd_mono binary64 V (3 / 2) (1 + h) ltac:(lra)). lra.
Qed.
