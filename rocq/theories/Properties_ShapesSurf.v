(** C83, continued: points with the wrong number of columns at trained response surfaces
    (utils/response_surfaces.py 129-164, 277-328, 390-451) *)
From Coq Require Import String Reals Lra Lia List Arith ZArith Bool FunctionalExtensionality.
From Verif Require Import Prelude Py NumArr Toy M_Misc M_RespSurf P_Misc P_IndexSet P_Poly P_PolyTrain P_Rbf.
Import ListNotations.
Open Scope R_scope.

Lemma binom_pos : forall n k, (k <= n)%nat -> (1 <= binom n k)%nat.
Proof.
  induction n; intros k Hk; destruct k; rewrite ?binom_0; try lia. rewrite binom_pascal. specialize (IHn k ltac:(lia)). lia.
Qed.
Lemma terms_lt : forall N c d, (1 <= N)%nat -> (binom (N + c) c < binom (N + (c + S d)) (c + S d))%nat.
Proof.
  intros N c d HN. induction d.
  - replace (N + (c + 1))%nat with (S (N + c)) by lia. replace (c + 1)%nat with (S c) by lia. rewrite binom_pascal. assert (P := binom_pos (N + c) (S c) ltac:(lia)). lia.
  - replace (c + S (S d))%nat with (S (c + S d)) by lia. replace (N + S (c + S d))%nat with (S (N + (c + S d))) by lia. rewrite binom_pascal. lia.
Qed.
Lemma terms_neq : forall N c m, (1 <= N)%nat -> c <> m -> binom (N + c) c <> binom (N + m) m.
Proof.
  intros N c m HN Hne. destruct (Nat.lt_ge_cases c m) as [H|H].
  - replace m with (c + S (m - c - 1))%nat by lia. assert (Q := terms_lt N c (m - c - 1) HN). lia.
  - replace c with (m + S (c - m - 1))%nat by lia. assert (Q := terms_lt N m (c - m - 1) HN). lia.
Qed.
Lemma rev_repeat : forall A (a : A) n, rev (repeat a n) = repeat a n.
Proof. induction n; [reflexivity|]. cbn [repeat rev]. rewrite IHn. symmetry. apply repeat_cons. Qed.
Lemma mdot_refuses : forall X Y a b c d, shape X = [a; b] -> shape Y = [c; d] -> b <> c -> mdot X Y = Err ValueError.
Proof. intros X Y a b c d HX HY H. unfold mdot. rewrite HX, HY. apply Nat.eqb_neq in H. now rewrite H. Qed.

(** surfaces of degree at least 1 in m variables refuse points with c <> m coordinates *)
Theorem C83_surfaces_refuse : forall X M c m cg, shape X = [M; c] -> (1 <= c)%nat -> c <> m ->
  (forall s, (1 <= pa_N s)%nat -> shape (pa_weights s) = [binom (pa_N s + m) m; 1%nat] -> poly_predict s X cg = Err ValueError) /\
  (forall s T, (1 <= T)%nat -> (1 <= rb_N s)%nat -> shape (rb_X s) = [T; m] -> shape (rb_ell s) = [m; 1%nat] -> shape (rb_rw s) = [T; 1%nat] ->
     shape (rb_pw s) = [binom (rb_N s + m) m; 1%nat] -> rbf_predict s X cg = Err ValueError).
Proof.
  intros X M c m cg HX Hc Hne. split.
  - intros s HN Hw. unfold poly_predict. rewrite (process_inputs_eq _ X M c HX). cbn [rbind].
    destruct (polynomial_bases_ok X (pa_N s) M c HX Hc) as (L & EL & ->). cbn [rbind].
    erewrite mdot_refuses; [reflexivity|reflexivity|exact Hw|]. rewrite (index_set_length (pa_N s) c Hc L EL). now apply terms_neq.
  - intros s T HT HN SX Se Sr Sp. unfold rbf_predict. rewrite (process_inputs_eq _ X M c HX). cbn [rbind].
    destruct (exponential_squared X (rb_X s) 1 (rb_ell s)) as [K|e] eqn:EK; cbn [rbind].
    + destruct (polynomial_bases_ok X (rb_N s) M c HX Hc) as (L & EL & ->). cbn [rbind].
      destruct (mdot K (rb_rw s)) as [f1|e] eqn:E1; cbn [rbind].
      * erewrite mdot_refuses; [reflexivity|reflexivity|exact Sp|]. rewrite (index_set_length (rb_N s) c Hc L EL). now apply terms_neq.
      * unfold mdot in E1. rewrite Sr in E1. destruct (shape K) as [|? [|? [|]]]; try congruence. destruct (Nat.eqb n0 T); congruence.
    + unfold exponential_squared, shape2 in EK. rewrite HX, SX in EK. cbn [rbind] in EK. destruct (bdim c m); [|destruct T; [lia|cbn in EK; congruence]].
      destruct (_ && _)%bool; congruence.
Qed.
Print Assumptions C83_surfaces_refuse.

(** a radial basis surface of degree 0 in m variables: it refuses points with 2, ..., m - 1 or
    more than m coordinates, but accepts a single column and uses it for all m coordinates *)
Theorem C83_degree0_refuted : forall s X M c m T, shape X = [M; c] -> (1 <= c)%nat -> c <> m -> (2 <= m)%nat -> (1 <= T)%nat -> rb_N s = 0%nat ->
  shape (rb_X s) = [T; m] -> shape (rb_ell s) = [m; 1%nat] -> shape (rb_rw s) = [T; 1%nat] -> shape (rb_pw s) = [1%nat; 1%nat] ->
  (c <> 1%nat -> rbf_predict s X false = Err ValueError) /\
  (c = 1%nat -> exists F F', rbf_predict s X false = Ok (F, None) /\ rbf_predict s (mk2 M m (fun r _ => X.[r, 0%nat])) false = Ok (F', None) /\ shape F = [M; 1%nat] /\ F' === F).
Proof.
  intros s X M c m T HX Hc Hne Hm HT HN SX Se Sr Sp.
  assert (SE : size (rb_ell s) = m) by (unfold size; rewrite Se; cbn; lia). split.
  - intros H1. unfold rbf_predict. rewrite (process_inputs_eq _ X M c HX). cbn [rbind].
    unfold exponential_squared, shape2. rewrite HX, SX. cbn [rbind]. unfold bdim. rewrite (proj2 (Nat.eqb_neq c m) Hne), (proj2 (Nat.eqb_neq c 1) H1), (proj2 (Nat.eqb_neq m 1) ltac:(lia)).
    rewrite (proj2 (Nat.eqb_neq T 0) ltac:(lia)). reflexivity.
  - intros ->.
    set (X' := mk2 M m (fun r _ => X.[r, 0%nat])).
    assert (EK : forall ell, exponential_squared X (rb_X s) 1 ell = exponential_squared X' (rb_X s) 1 ell).
    { intros ell. unfold exponential_squared, shape2. rewrite HX, SX. change (shape X') with [M; m]. cbn [rbind]. unfold bdim. rewrite (proj2 (Nat.eqb_neq 1 m) ltac:(lia)), !Nat.eqb_refl.
      reflexivity. }
    assert (EB : forall Y d, shape Y = [M; d] -> (1 <= d)%nat -> exists B L, polynomial_bases Y 0 = Ok (B, L) /\ shape B = [M; 1%nat] /\ forall r, B.[r, 0%nat] = 1).
    { intros Y d HY Hd. destruct (polynomial_bases_ok Y 0 M d HY Hd) as (L & EL & E). eexists _, L. split; [exact E|].
      assert (L = [repeat 0%nat d]) as ->.
      { unfold index_set in EL. destruct d; [lia|]. injection EL as <-. cbn [seq map concat app]. f_equal. apply (rev_repeat nat 0%nat (S d)). }
      split; [reflexivity|]. intros r. rewrite at_mk2. cbn [nth]. unfold mono. rewrite <- (prodf_one d). apply prodf_ext. intros j Hj. now rewrite nth_repeat. }
    destruct (EB X 1%nat HX ltac:(lia)) as (B1 & L1 & E1 & S1 & V1). destruct (EB X' m eq_refl ltac:(lia)) as (B2 & L2 & E2 & S2 & V2).
    assert (PR : forall Y d B L, shape Y = [M; d] -> exponential_squared Y (rb_X s) 1 (rb_ell s) = exponential_squared X' (rb_X s) 1 (rb_ell s) -> polynomial_bases Y 0 = Ok (B, L) -> shape B = [M; 1%nat] ->
      (forall r, B.[r, 0%nat] = 1) -> exists F, rbf_predict s Y false = Ok (F, None) /\ shape F = [M; 1%nat] /\
        forall r, (r < M)%nat -> F.[r, 0%nat] = sumf T (fun a => 1 * gauss m (fun k => (rb_ell s).[k, 0%nat]) (fun k => X'.[r, k]) (fun k => (rb_X s).[a, k]) * (rb_rw s).[a, 0%nat]) + (rb_pw s).[0%nat, 0%nat]).
    { intros Y d B L HY EY EBY SB VB. unfold rbf_predict. rewrite (process_inputs_eq _ Y M d HY). cbn [rbind]. rewrite EY, (exponential_squared_ok X' (rb_X s) 1 (rb_ell s) M T m eq_refl SX SE). cbn [rbind].
      rewrite HN, EBY. cbn [rbind]. set (K := mk2 M T _). rewrite (mdot_ok K (rb_rw s) M T 1 eq_refl Sr), (mdot_ok B (rb_pw s) M 1 1 SB Sp). cbn [rbind].
      set (F1 := mk2 M 1 _). set (F2 := mk2 M 1 _). destruct (bcast2_same _ _ _ Rplus F1 F2 M 1 eq_refl eq_refl) as (F & G1 & G2 & G3). rewrite G1. cbn [rbind]. rewrite <- G2, reshape_id. cbn [rbind].
      exists F. split; [reflexivity|]. split; [reflexivity|]. intros r Hr. rewrite G3 by (auto; lia). unfold F1, F2. rewrite !at_mk2. f_equal. cbn [sumf]. rewrite VB. ring. }
    destruct (PR X 1%nat B1 L1 HX (EK _) E1 S1 V1) as (F & P1 & Q1 & R1). destruct (PR X' m B2 L2 eq_refl eq_refl E2 S2 V2) as (F' & P2 & Q2 & R2).
    exists F, F'. split; [exact P1|]. split; [exact P2|]. split; [exact Q1|]. apply (eqnd2 _ M 1); auto. intros i j Hi Hj. replace j with 0%nat by lia. now rewrite R1, R2.
Qed.
Print Assumptions C83_degree0_refuted.

(** the surface exp(-(x - 1)^2 - (y + 1)^2), given the points 0 and 2: the values at (0, 0), (2, 2);
    given points with three coordinates it raises; of degree 1 it raises for both *)
Definition s83 (N p : nat) : rbf := {| rb_N := N; rb_X := mat_of [[1; -1]]; rb_f := mat_of [[1]]; rb_K := mat_of [[1]]; rb_ell := mat_of [[1]; [1]]; rb_Rsqr := Fin 1;
  rb_rw := mat_of [[1]]; rb_pw := mk2 p 1 (fun _ _ => 0) |}.
Example C83_surfaces_case : (exists F, rbf_predict (s83 0 1) (mat_of [[0]; [2]]) false = Ok (F, None) /\ F.[0%nat, 0%nat] = exp (-2) /\ F.[1%nat, 0%nat] = exp (-10)) /\
  rbf_predict (s83 0 1) (mat_of [[0; 0; 0]; [2; 2; 2]]) false = Err ValueError /\ rbf_predict (s83 1 3) (mat_of [[0]; [2]]) true = Err ValueError.
Proof.
  split; [|split].
  - destruct (C83_degree0_refuted (s83 0 1) (mat_of [[0]; [2]]) 2 1 2 1) as (_ & H); try reflexivity; try lia.
    destruct (H eq_refl) as (F & F' & E & _ & S & _). exists F. split; [exact E|]. injection E as <-. split; cbn; rewrite ?Rmult_0_l, ?Rplus_0_l, ?Rmult_1_l, ?Rmult_1_r, ?Rplus_0_r; f_equal; field.
  - apply (C83_degree0_refuted (s83 0 1) (mat_of [[0; 0; 0]; [2; 2; 2]]) 2 3 2 1); try reflexivity; lia.
  - exact (proj2 (C83_surfaces_refuse (mat_of [[0]; [2]]) 2 1 2 true eq_refl ltac:(lia) ltac:(lia)) (s83 1 3) 1%nat ltac:(lia) ltac:(cbn; lia) eq_refl eq_refl eq_refl eq_refl).
Qed.
