(** C94: a polynomial surface of higher degree or in more active variables never fits worse, and
    the surface depends on the active subspace, not on the basis of it
    (utils/response_surfaces.py 74-164; response_surfaces.py 63-85, 179-208) *)
From Coq Require Import String Reals Lra Lia List Arith ZArith Bool FunctionalExtensionality.
From Verif Require Import Prelude Py NumArr LinAlg Lsq Toy M_Misc M_RespSurf M_Gradients M_Subspaces M_Domains M_ASRS P_Misc P_IndexSet P_Poly P_PolyTrain P_PolyFacts PolySub P_Domains P_ASRS
  Properties_RespSurf Properties_Domains Properties_ASRS Properties_Ridge Properties_EndToEnd Properties_PolyInvariance.
Import ListNotations.
Open Scope R_scope.

(** each column of X is an affine function of the columns of X' *)
Definition columns_of (M m m' : nat) (X X' : nd R) : Prop :=
  exists (K : nat -> nat -> R) b, forall r i, (r < M)%nat -> (i < m)%nat -> X.[r, i] = sumf m' (fun j => K i j * X'.[r, j]) + b i.

Lemma nested_cost : forall lstsq N N' X X' f weights M m m' s s',
  lstsq_contract lstsq -> shape X = [M; m] -> shape X' = [M; m'] -> shape f = [M; 1%nat] -> (1 <= m)%nat -> (1 <= m')%nat -> (1 <= N)%nat -> (N <= N')%nat ->
  weights_fit weights M -> columns_of M m m' X X' ->
  poly_train lstsq N X f weights = Ok s -> poly_train lstsq N' X' f weights = Ok s' ->
  fit_cost M X' f weights (poly_value s' m') <= fit_cost M X f weights (poly_value s m).
Proof.
  intros lstsq N N' X X' f weights M m m' s s' HL HX HX' Hf Hm Hm' HN HNN Hw (K & b & HK) T T'.
  destruct (C87_best_fit lstsq N X f weights M m s HL HX Hf Hm HN Hw T) as ((P & _) & _ & _).
  destruct (C87_best_fit lstsq N' X' f weights M m' s' HL HX' Hf Hm' ltac:(lia) Hw T') as ((_ & B') & _ & _).
  assert (PA := is_poly_le _ _ N' _ HNN (is_poly_affine m m' N _ K b P)).
  eapply Rle_trans; [exact (B' _ PA)|]. right. unfold fit_cost. apply sumf_ext; intros r Hr. do 3 f_equal.
  apply (is_poly_dep m N _ _ _ P). intros i Hi. now rewrite <- HK.
Qed.

(** the residuals shrink; so R^2, where it is a number, grows, and it is a number for both or none *)
Theorem C94_nested_fits : forall lstsq N N' X X' f weights M m m' s s',
  lstsq_contract lstsq -> shape X = [M; m] -> shape X' = [M; m'] -> shape f = [M; 1%nat] -> (1 <= m)%nat -> (1 <= m')%nat -> (1 <= N)%nat -> (N <= N')%nat ->
  weights_fit weights M -> columns_of M m m' X X' ->
  poly_train lstsq N X f weights = Ok s -> poly_train lstsq N' X' f weights = Ok s' ->
  (exists F F', poly_predict s X false = Ok (F, None) /\ poly_predict s' X' false = Ok (F', None) /\
     sumf M (fun r => (weight_of weights r * (f.[r, 0%nat] - F'.[r, 0%nat])) ^ 2) <= sumf M (fun r => (weight_of weights r * (f.[r, 0%nat] - F.[r, 0%nat])) ^ 2)) /\
  (forall a b, pa_Rsqr s = Fin a -> pa_Rsqr s' = Fin b -> a <= b) /\
  ((exists a, pa_Rsqr s = Fin a) <-> (exists b, pa_Rsqr s' = Fin b)).
Proof.
  intros lstsq N N' X X' f weights M m m' s s' HL HX HX' Hf Hm Hm' HN HNN Hw HC T T'.
  assert (LE := nested_cost lstsq N N' X X' f weights M m m' s s' HL HX HX' Hf Hm Hm' HN HNN Hw HC T T').
  destruct (C87_best_fit lstsq N X f weights M m s HL HX Hf Hm HN Hw T) as (_ & _ & RQ).
  destruct (C87_best_fit lstsq N' X' f weights M m' s' HL HX' Hf Hm' ltac:(lia) Hw T') as (_ & _ & RQ').
  split; [|split].
  - assert (PV : forall N X m s, (1 <= N)%nat -> (1 <= m)%nat -> shape X = [M; m] -> poly_train lstsq N X f weights = Ok s ->
       exists F, poly_predict s X false = Ok (F, None) /\ forall r, (r < M)%nat -> F.[r, 0%nat] = poly_value s m (fun j => X.[r, j])).
    { clear - HL Hf Hw. intros N X m s HN Hm HX T.
      destruct (poly_train_inv lstsq HL N X f weights M m HX Hf Hm HN Hw) as (L & EL & _ & Htr & _). specialize (Htr s T).
      destruct (poly_predict_ok s X M m false HX Hm (trained_shape N X f weights M m L s Hm EL Htr)) as (L2 & F & EL2 & SF & E2 & E3).
      exists F. split; [exact E3|]. intros r Hr. rewrite E2 by auto. symmetry. apply poly_value_ok; auto. exact (trained_shape N X f weights M m L s Hm EL Htr). }
    destruct (PV N X m s HN Hm HX T) as (F & E1 & E2). destruct (PV N' X' m' s' ltac:(lia) Hm' HX' T') as (F' & E1' & E2').
    exists F, F'. split; [exact E1|]. split; [exact E1'|].
    unfold fit_cost in LE.
    rewrite (sumf_ext M _ (fun r => (weight_of weights r * (f.[r, 0%nat] - poly_value s' m' (fun j => X'.[r, j]))) ^ 2)) by (intros r Hr; now rewrite E2').
    eapply Rle_trans; [exact LE|]. right. apply sumf_ext; intros r Hr. now rewrite E2.
  - intros a b Ea Eb. rewrite RQ in Ea. rewrite RQ' in Eb.
    set (tss := sumf M (fun i => (weight_of weights i * f.[i, 0%nat] - sumf M (fun j => weight_of weights j * f.[j, 0%nat]) / INR M) ^ 2)) in *.
    assert (T0 : 0 <= tss) by (apply sumf_nonneg; intros; apply pow2_ge_0).
    unfold xdiv in Ea, Eb. destruct (Req_EM_T tss 0) as [Z|Z].
    + exfalso. revert Ea. unfold xsgninf. destruct (Rlt_dec 0 _); [discriminate|]. destruct (Rlt_dec _ 0); discriminate.
    + injection Ea as <-. injection Eb as <-. unfold Rdiv. assert (0 < / tss) by (apply Rinv_0_lt_compat; lra). nra.
  - rewrite RQ, RQ'.
    set (tss := sumf M (fun i => (weight_of weights i * f.[i, 0%nat] - sumf M (fun j => weight_of weights j * f.[j, 0%nat]) / INR M) ^ 2)) in *.
    assert (NF : forall u, (exists a, xsub (Fin 1) (xdiv (Fin u) (Fin tss)) = Fin a) <-> tss <> 0).
    { intros u. unfold xdiv. destruct (Req_EM_T tss 0) as [Z|Z].
      - split; [|intros; contradiction]. intros (a & Ea). exfalso. revert Ea. unfold xsgninf. destruct (Rlt_dec 0 _); [discriminate|]. destruct (Rlt_dec _ 0); discriminate.
      - split; [auto|]. intros _. eexists. reflexivity. }
    rewrite !NF. tauto.
Qed.
Print Assumptions C94_nested_fits.

(** the columns of A are combinations of those of A' *)
Definition in_span (m n n' : nat) (A A' : nd R) : Prop :=
  exists K : nat -> nat -> R, forall k j, (k < m)%nat -> (j < n)%nat -> A.[k, j] = sumf n' (fun q => A'.[k, q] * K q j).
(** the points X A *)
Definition active_points (M m n : nat) (X A : nd R) : nd R := mk2 M n (fun r j => sumf m (fun k => X.[r, k] * A.[k, j])).

Lemma span_columns : forall M m n n' X A A', in_span m n n' A A' -> columns_of M n n' (active_points M m n X A) (active_points M m n' X A').
Proof.
  intros M m n n' X A A' (K & HK). exists (fun i j => K j i), (fun _ => 0). intros r i Hr Hi. unfold active_points. rewrite !at_mk2, Rplus_0_r.
  rewrite (sumf_ext m _ (fun k => sumf n' (fun q => K q i * (X.[r, k] * A'.[k, q])))).
  - rewrite sumf_swap. apply sumf_ext; intros q Hq. rewrite at_mk2, sumf_scal_l. reflexivity.
  - intros k Hk. rewrite HK by auto. rewrite <- sumf_scal_l. apply sumf_ext; intros; ring.
Qed.

Lemma train_with_data_poly : forall solve cholesky fminbound lstsq a N st A B X f v M m n r s', shape X = [M; m] -> shape A = [m; n] ->
  s_W1 (d_subs (av_domain a)) = Some A -> s_W2 (d_subs (av_domain a)) = Some B -> shape B = [m; r] ->
  train_with_data solve cholesky fminbound lstsq (ASRS (RSPoly N st) a) X f v = Ok s' ->
  exists p, s' = ASRS (RSPoly N (Some p)) a /\ poly_train lstsq N (active_points M m n X A) f None = Ok p.
Proof.
  intros solve cholesky fminbound lstsq a N st A B X f v M m n r s' HX HA EA EB SB H. unfold train_with_data, av_forward in H. cbn [as_map] in H.
  rewrite (process_inputs_eq _ X M m HX) in H. cbn [rbind] in H. rewrite EA, EB in H. cbn [need rbind] in H.
  rewrite (npdot2 X A M m n HX HA), (npdot2 X B M m r HX SB) in H. cbn [rbind] in H.
  unfold asrs_train in H. cbn [as_rs as_map rs_train] in H. apply rbind_ok in H. destruct H as (q & Hq & H). apply rbind_ok in Hq. destruct Hq as (p & Hp & Hq).
  injection Hq as <-. injection H as <-. exists p. split; [reflexivity|exact Hp].
Qed.

(** surfaces on two sets of active directions, the first in the span of the second: the second
    surface fits the samples at least as well *)
Theorem C94_more_directions : forall solve cholesky fminbound lstsq a a' N N' st st' A B A' B' X f v v' M m n n' r r' s s',
  lstsq_contract lstsq -> shape X = [M; m] -> shape f = [M; 1%nat] -> shape A = [m; n] -> shape A' = [m; n'] -> shape B = [m; r] -> shape B' = [m; r'] ->
  (1 <= n)%nat -> (1 <= n')%nat -> (1 <= N)%nat -> (N <= N')%nat ->
  s_W1 (d_subs (av_domain a)) = Some A -> s_W2 (d_subs (av_domain a)) = Some B -> s_W1 (d_subs (av_domain a')) = Some A' -> s_W2 (d_subs (av_domain a')) = Some B' ->
  in_span m n n' A A' ->
  train_with_data solve cholesky fminbound lstsq (ASRS (RSPoly N st) a) X f v = Ok s ->
  train_with_data solve cholesky fminbound lstsq (ASRS (RSPoly N' st') a') X f v' = Ok s' ->
  exists p p' F F', as_rs s = RSPoly N (Some p) /\ as_rs s' = RSPoly N' (Some p') /\
   asrs_predict s X false = Ok (F, None) /\ asrs_predict s' X false = Ok (F', None) /\
   sumf M (fun r => (f.[r, 0%nat] - F'.[r, 0%nat]) ^ 2) <= sumf M (fun r => (f.[r, 0%nat] - F.[r, 0%nat]) ^ 2) /\
   (forall a b, pa_Rsqr p = Fin a -> pa_Rsqr p' = Fin b -> a <= b).
Proof.
  intros solve cholesky fminbound lstsq a a' N N' st st' A B A' B' X f v v' M m n n' r r' s s' HL HX Hf SA SA' SB SB' Hn Hn' HN HNN EA EB EA' EB' SP T T'.
  destruct (train_with_data_poly _ _ _ _ _ _ _ _ _ _ _ _ _ _ _ _ _ HX SA EA EB SB T) as (p & -> & Tp).
  destruct (train_with_data_poly _ _ _ _ _ _ _ _ _ _ _ _ _ _ _ _ _ HX SA' EA' EB' SB' T') as (p' & -> & Tp').
  destruct (C94_nested_fits lstsq N N' (active_points M m n X A) (active_points M m n' X A') f None M n n' p p' HL eq_refl eq_refl Hf Hn Hn' HN HNN I (span_columns M m n n' X A A' SP) Tp Tp')
    as ((F & F' & E1 & E2 & LE) & RQ & _).
  exists p, p', F, F'. split; [reflexivity|]. split; [reflexivity|].
  assert (AP : forall a A B n r N p F, shape A = [m; n] -> shape B = [m; r] -> s_W1 (d_subs (av_domain a)) = Some A -> s_W2 (d_subs (av_domain a)) = Some B ->
     poly_predict p (active_points M m n X A) false = Ok (F, None) -> asrs_predict (ASRS (RSPoly N (Some p)) a) X false = Ok (F, None)).
  { clear - HX. intros a A B n r N p F SA SB EA EB H. unfold asrs_predict, av_forward. cbn [as_map]. rewrite (process_inputs_eq _ X M m HX). cbn [rbind].
    rewrite EA, EB. cbn [need rbind]. rewrite (npdot2 X A M m n HX SA), (npdot2 X B M m r HX SB). cbn [rbind]. unfold predict_av. cbn [as_rs rs_predict].
    change (mk2 M n (fun i j => sumf m (fun l => X.[i, l] * A.[l, j]))) with (active_points M m n X A). rewrite H. reflexivity. }
  split; [exact (AP a A B n r N p F SA SB EA EB E1)|]. split; [exact (AP a' A' B' n' r' N' p' F' SA' SB' EA' EB' E2)|].
  split; [|exact RQ]. cbn [weight_of] in LE.
  rewrite (sumf_ext M (fun r => (f.[r, 0%nat] - F'.[r, 0%nat]) ^ 2) (fun r => (1 * (f.[r, 0%nat] - F'.[r, 0%nat])) ^ 2)) by (intros; ring).
  rewrite (sumf_ext M (fun r => (f.[r, 0%nat] - F.[r, 0%nat]) ^ 2) (fun r => (1 * (f.[r, 0%nat] - F.[r, 0%nat])) ^ 2)) by (intros; ring). exact LE.
Qed.
Print Assumptions C94_more_directions.

(** in particular for two partitions of the same eigenvectors, n of them and n' >= n of them *)
Theorem C94_partitions : forall solve cholesky fminbound lstsq (G : gen) (U : Type) (ws ws1 ws2 : world G U (nd R) * subspaces) V k1 k2 d1 d2 N st X f v M m n n' s s',
  lstsq_contract lstsq -> shape X = [M; m] -> shape f = [M; 1%nat] -> s_eigenvecs (snd ws) = Some V -> shape V = [m; m] -> (1 <= N)%nat -> (n <= n')%Z ->
  ss_partition (IsA n) ws = (Ok tt, ws1) -> ss_partition (IsA n') ws = (Ok tt, ws2) -> d_subs d1 = snd ws1 -> d_subs d2 = snd ws2 ->
  train_with_data solve cholesky fminbound lstsq (ASRS (RSPoly N st) (AVM k1 d1)) X f v = Ok s ->
  train_with_data solve cholesky fminbound lstsq (ASRS (RSPoly N st) (AVM k2 d2)) X f v = Ok s' ->
  exists p p' F F', as_rs s = RSPoly N (Some p) /\ as_rs s' = RSPoly N (Some p') /\
   asrs_predict s X false = Ok (F, None) /\ asrs_predict s' X false = Ok (F', None) /\
   sumf M (fun r => (f.[r, 0%nat] - F'.[r, 0%nat]) ^ 2) <= sumf M (fun r => (f.[r, 0%nat] - F.[r, 0%nat]) ^ 2) /\
   (forall a b, pa_Rsqr p = Fin a -> pa_Rsqr p' = Fin b -> a <= b).
Proof.
  intros solve cholesky fminbound lstsq G U ws ws1 ws2 V k1 k2 d1 d2 N st X f v M m n n' s s' HL HX Hf EV SV HN Hnn P1 P2 D1 D2 T T'.
  assert (PI : forall z w, ss_partition (IsA z) ws = (Ok tt, w) -> (1 <= z <= Z.of_nat m)%Z /\ s_W1 (snd w) = Some (cols_slice V 0 (Z.to_nat z)) /\ s_W2 (snd w) = Some (cols_slice V (Z.to_nat z) m)).
  { clear - EV SV. intros z w H. unfold ss_partition, mbind, getS in H. destruct ws as (u & ss). cbn [fst snd] in *. rewrite EV in H. rewrite (nrows_shape2 _ _ _ _ SV), (ncols_shape2 _ _ _ _ SV) in H.
    destruct (Z.ltb_spec z 1); [discriminate|]. destruct (Z.ltb_spec (Z.of_nat m) z); [discriminate|]. cbn [orb] in H.
    unfold setS in H. injection H as <-. cbn. split; [lia|]. split; reflexivity. }
  destruct (PI _ _ P1) as (B1 & E1 & F1). destruct (PI _ _ P2) as (B2 & E2 & F2).
  assert (CS : forall a b, (b <= m)%nat -> shape (cols_slice V a b) = [m; (b - a)%nat]).
  { intros a b Hb. unfold cols_slice. rewrite (nrows_shape2 _ _ _ _ SV), (ncols_shape2 _ _ _ _ SV). cbn [shape mk2]. rewrite Nat.min_l by lia. reflexivity. }
  apply (C94_more_directions solve cholesky fminbound lstsq (AVM k1 d1) (AVM k2 d2) N N st st (cols_slice V 0 (Z.to_nat n)) (cols_slice V (Z.to_nat n) m)
    (cols_slice V 0 (Z.to_nat n')) (cols_slice V (Z.to_nat n') m) X f v v M m (Z.to_nat n) (Z.to_nat n') (m - Z.to_nat n) (m - Z.to_nat n') s s'); auto; try lia;
    try (rewrite CS by lia; f_equal; f_equal; lia); cbn [av_domain]; try (rewrite D1; assumption); try (rewrite D2; assumption).
  exists (fun q j => if Nat.eqb q j then 1 else 0). intros k j Hk Hj. unfold cols_slice. rewrite !at_mk2.
  rewrite (sumf_single (Z.to_nat n') j); [|lia|].
  - rewrite at_mk2, Nat.eqb_refl. ring.
  - intros q Hq Hne. apply Nat.eqb_neq in Hne. rewrite Hne. ring.
Qed.
Print Assumptions C94_partitions.

(** two sets of active directions with the same span give the same surface, as long as the samples
    determine the polynomial in the second set *)
Theorem C94_same_span : forall solve cholesky fminbound lstsq a a' N st st' A B A' B' X f v v' M m n n' r r' s s',
  lstsq_contract lstsq -> shape X = [M; m] -> shape f = [M; 1%nat] -> shape A = [m; n] -> shape A' = [m; n'] -> shape B = [m; r] -> shape B' = [m; r'] ->
  (1 <= n)%nat -> (1 <= n')%nat -> (1 <= N)%nat ->
  s_W1 (d_subs (av_domain a)) = Some A -> s_W2 (d_subs (av_domain a)) = Some B -> s_W1 (d_subs (av_domain a')) = Some A' -> s_W2 (d_subs (av_domain a')) = Some B' ->
  in_span m n n' A A' -> in_span m n' n A' A -> unisolvent N M n' (active_points M m n' X A') None ->
  train_with_data solve cholesky fminbound lstsq (ASRS (RSPoly N st) a) X f v = Ok s ->
  train_with_data solve cholesky fminbound lstsq (ASRS (RSPoly N st') a') X f v' = Ok s' ->
  (forall P Y, shape Y = [P; m] -> exists F F', asrs_predict s Y false = Ok (F, None) /\ asrs_predict s' Y false = Ok (F', None) /\
    shape F = [P; 1%nat] /\ F' === F) /\
  (forall p p', as_rs s = RSPoly N (Some p) -> as_rs s' = RSPoly N (Some p') -> pa_Rsqr p' = pa_Rsqr p).
Proof.
  intros solve cholesky fminbound lstsq a a' N st st' A B A' B' X f v v' M m n n' r r' s s' HL HX Hf SA SA' SB SB' Hn Hn' HN EA EB EA' EB' SP SP' HU T T'.
  destruct (train_with_data_poly _ _ _ _ _ _ _ _ _ _ _ _ _ _ _ _ _ HX SA EA EB SB T) as (p & -> & Tp).
  destruct (train_with_data_poly _ _ _ _ _ _ _ _ _ _ _ _ _ _ _ _ _ HX SA' EA' EB' SB' T') as (p' & -> & Tp').
  set (Z := active_points M m n X A) in *. set (Z' := active_points M m n' X A') in *.
  assert (C1 := nested_cost lstsq N N Z Z' f None M n n' p p' HL eq_refl eq_refl Hf Hn Hn' HN (le_n _) I (span_columns M m n n' X A A' SP) Tp Tp').
  assert (C2 := nested_cost lstsq N N Z' Z f None M n' n p' p HL eq_refl eq_refl Hf Hn' Hn HN (le_n _) I (span_columns M m n' n X A' A SP') Tp' Tp).
  destruct (C87_best_fit lstsq N Z f None M n p HL eq_refl Hf Hn HN I Tp) as ((P & _) & _ & RQ).
  destruct (C87_best_fit lstsq N Z' f None M n' p' HL eq_refl Hf Hn' HN I Tp') as ((P' & B0) & UN & RQ').
  destruct SP as (K & HK).
  assert (YA : forall P0 Y q j, (q < P0)%nat -> (j < n)%nat -> (active_points P0 m n Y A).[q, j] = sumf n' (fun l => K l j * (active_points P0 m n' Y A').[q, l])).
  { intros P0 Y q j Hq Hj. unfold active_points. rewrite at_mk2. rewrite (sumf_ext m _ (fun k => sumf n' (fun l => K l j * (Y.[q, k] * A'.[k, l])))).
    - rewrite sumf_swap. apply sumf_ext; intros l Hl. rewrite at_mk2, sumf_scal_l. reflexivity.
    - intros k Hk. rewrite HK by auto. rewrite <- sumf_scal_l. apply sumf_ext; intros; ring. }
  set (pk := fun y : nat -> R => poly_value p n (fun j => sumf n' (fun l => K l j * y l) + 0)).
  assert (PK : is_poly n' N pk) by (exact (is_poly_affine n n' N _ (fun j l => K l j) (fun _ => 0) P)).
  assert (EQ : forall y, poly_value p' n' y = pk y).
  { apply UN; auto. split; auto. intros q Hq. eapply Rle_trans; [|exact (B0 q Hq)]. eapply Rle_trans; [|exact C2]. right. unfold fit_cost. apply sumf_ext; intros i Hi. do 3 f_equal.
    unfold pk. apply (is_poly_dep n N _ _ _ P). intros j Hj. rewrite Rplus_0_r. unfold Z'. rewrite <- YA by auto. reflexivity. }
  assert (AP : forall a A B n r P0 Y p L, shape Y = [P0; m] -> (1 <= n)%nat -> shape A = [m; n] -> shape B = [m; r] -> s_W1 (d_subs (av_domain a)) = Some A -> s_W2 (d_subs (av_domain a)) = Some B ->
     index_set N n = Ok L -> trained N (active_points M m n X A) f None M n L p -> exists F, asrs_predict (ASRS (RSPoly N (Some p)) a) Y false = Ok (F, None) /\ shape F = [P0; 1%nat] /\
        forall q, (q < P0)%nat -> F.[q, 0%nat] = poly_value p n (fun j => (active_points P0 m n Y A).[q, j])).
  { clear - HX HN. intros a A B n r P0 Y p L HY Hn SA SB EA EB EL Htr. assert (TS := trained_shape N _ f None M n L p Hn EL Htr).
    destruct (poly_predict_ok p (active_points P0 m n Y A) P0 n false eq_refl Hn TS) as (L2 & F & EL2 & SF & E2 & E3).
    exists F. split; [|split; auto].
    - unfold asrs_predict, av_forward. cbn [as_map]. rewrite (process_inputs_eq _ Y P0 m HY). cbn [rbind].
      rewrite EA, EB. cbn [need rbind]. rewrite (npdot2 Y A P0 m n HY SA), (npdot2 Y B P0 m r HY SB). cbn [rbind]. unfold predict_av. cbn [as_rs rs_predict].
      change (mk2 P0 n (fun i j => sumf m (fun l => Y.[i, l] * A.[l, j]))) with (active_points P0 m n Y A). rewrite E3. reflexivity.
    - intros q Hq. rewrite E2 by auto. symmetry. apply poly_value_ok; auto. }
  split.
  - intros P0 Y HY.
    destruct (poly_train_inv lstsq HL N Z f None M n eq_refl Hf Hn HN I) as (L & EL & _ & Htr & _). specialize (Htr p Tp).
    destruct (poly_train_inv lstsq HL N Z' f None M n' eq_refl Hf Hn' HN I) as (L' & EL' & _ & Htr' & _). specialize (Htr' p' Tp').
    destruct (AP a A B n r P0 Y p L HY Hn SA SB EA EB EL Htr) as (F & E1 & S1 & V1).
    destruct (AP a' A' B' n' r' P0 Y p' L' HY Hn' SA' SB' EA' EB' EL' Htr') as (F' & E2 & S2 & V2).
    exists F, F'. split; [exact E1|]. split; [exact E2|]. split; [exact S1|].
    apply (eqnd2 _ P0 1); auto. intros q j Hq Hj. replace j with 0%nat by lia. rewrite V1, V2 by auto. rewrite EQ. unfold pk.
    apply (is_poly_dep n N _ _ _ P). intros l Hl. rewrite Rplus_0_r. rewrite <- YA by auto. reflexivity.
  - intros q q' Eq Eq'. cbn [as_rs] in Eq, Eq'. injection Eq as <-. injection Eq' as <-. rewrite RQ, RQ'. do 3 f_equal. lra.
Qed.
Print Assumptions C94_same_span.

(** samples of x1 at the corners of a square: a line in x0 explains nothing, R^2 = 0; a plane in
    (x0, x1) explains everything, R^2 = 1; and the planes in (x0, x1) and in (x0 + x1, x0 - x1)
    are the same surface *)
Definition V94 : nd R := mat_of [[1; 0; 0]; [0; 1; 0]; [0; 0; 1]].
Definition X94 : nd R := mat_of [[0; 0; 0]; [1; 0; 0]; [0; 1; 0]; [1; 1; 0]].
Definition f94 : nd R := mat_of [[0]; [0]; [1]; [1]].
Definition A94 : nd R := mat_of [[1; 1]; [1; -1]; [0; 0]].
Definition D94 (s : subspaces) : avdomain := AVD DUnbounded s 3 2 None None None None.
Lemma poly_plane : forall q, is_poly 2 1 q -> exists a b c, forall x, q x = a + b * x 0%nat + c * x 1%nat.
Proof.
  intros q (T & a & e & He & Hq). revert q Hq. induction T; intros q Hq.
  - exists 0, 0, 0. intros x. rewrite Hq. unfold terms_eval. cbn [sumf]. ring.
  - destruct (IHT ltac:(intros; apply He; lia) (fun x => terms_eval 2 T a e x) ltac:(reflexivity)) as (u & v & w & E).
    assert (K := He T ltac:(lia)). unfold nsum in K. simpl in K.
    assert (Q : forall x, q x = u + v * x 0%nat + w * x 1%nat + a T * (x 0%nat ^ e T 0%nat * x 1%nat ^ e T 1%nat)) by (intros x; rewrite Hq, <- E; unfold terms_eval; cbn [sumf prodf]; ring).
    destruct (e T 0%nat) as [|[|k0]], (e T 1%nat) as [|[|k1]]; try lia; [exists (u + a T), v, w|exists u, v, (w + a T)|exists u, (v + a T), w]; intros x; rewrite Q; cbn [pow]; ring.
Qed.
Example C94_case : forall solve cholesky fminbound, exists (ws1 ws2 : world toy_gen unit (nd R) * subspaces) s1 s2 s3 p1 p2,
  ss_partition (IsA 1%Z) (toy_world tt, Subs None (Some V94) None None None None) = (Ok tt, ws1) /\
  ss_partition (IsA 2%Z) (toy_world tt, Subs None (Some V94) None None None None) = (Ok tt, ws2) /\
  train_with_data solve cholesky fminbound lstsq_ref (ASRS (RSPoly 1 None) (AVM MUnbounded (D94 (snd ws1)))) X94 f94 None = Ok s1 /\
  train_with_data solve cholesky fminbound lstsq_ref (ASRS (RSPoly 1 None) (AVM MUnbounded (D94 (snd ws2)))) X94 f94 None = Ok s2 /\
  train_with_data solve cholesky fminbound lstsq_ref (ASRS (RSPoly 1 None) (AVM MUnbounded (D94 (Subs None None (Some A94) (Some (mat_of [[0]; [0]; [1]])) None None)))) X94 f94 None = Ok s3 /\
  as_rs s1 = RSPoly 1 (Some p1) /\ as_rs s2 = RSPoly 1 (Some p2) /\ pa_Rsqr p1 = Fin 0 /\ pa_Rsqr p2 = Fin 1 /\
  forall P Y, shape Y = [P; 3%nat] -> exists F F', asrs_predict s2 Y false = Ok (F, None) /\ asrs_predict s3 Y false = Ok (F', None) /\ F' === F.
Proof.
  intros solve cholesky fminbound.
  exists (toy_world tt, Subs None (Some V94) (Some (cols_slice V94 0 1)) (Some (cols_slice V94 1 3)) None None), (toy_world tt, Subs None (Some V94) (Some (cols_slice V94 0 2)) (Some (cols_slice V94 2 3)) None None).
  assert (TR : forall n a A B r, (1 <= n <= 3)%nat -> shape A = [3%nat; n] -> s_W1 (d_subs (av_domain a)) = Some A -> s_W2 (d_subs (av_domain a)) = Some B -> shape B = [3%nat; r] ->
    exists p, train_with_data solve cholesky fminbound lstsq_ref (ASRS (RSPoly 1 None) a) X94 f94 None = Ok (ASRS (RSPoly 1 (Some p)) a) /\ poly_train lstsq_ref 1 (active_points 4 3 n X94 A) f94 None = Ok p).
  { intros n a A B r Hn SA EA EB SB.
    destruct (C38_training_returns lstsq_ref 1 (active_points 4 3 n X94 A) f94 None 4 n lstsq_ref_contract lstsq_ref_total eq_refl eq_refl ltac:(lia) ltac:(lia) I) as (p & T).
    { destruct n as [|[|[|[|]]]]; try lia; cbn; lia. }
    exists p. split; [|exact T]. unfold train_with_data, av_forward. cbn [as_map]. rewrite (process_inputs_eq _ X94 4 3 eq_refl). cbn [rbind].
    rewrite EA, EB. cbn [need rbind]. rewrite (npdot2 X94 A 4 3 n eq_refl SA), (npdot2 X94 B 4 3 r eq_refl SB). cbn [rbind]. unfold asrs_train. cbn [as_rs as_map rs_train].
    change (mk2 4 n (fun i j => sumf 3 (fun l => X94.[i, l] * A.[l, j]))) with (active_points 4 3 n X94 A). rewrite T. reflexivity. }
  destruct (TR 1%nat (AVM MUnbounded (D94 (Subs None (Some V94) (Some (cols_slice V94 0 1)) (Some (cols_slice V94 1 3)) None None))) (cols_slice V94 0 1) (cols_slice V94 1 3) 2%nat ltac:(lia) eq_refl eq_refl eq_refl eq_refl) as (p1 & T1 & Q1).
  destruct (TR 2%nat (AVM MUnbounded (D94 (Subs None (Some V94) (Some (cols_slice V94 0 2)) (Some (cols_slice V94 2 3)) None None))) (cols_slice V94 0 2) (cols_slice V94 2 3) 1%nat ltac:(lia) eq_refl eq_refl eq_refl eq_refl) as (p2 & T2 & Q2).
  destruct (TR 2%nat (AVM MUnbounded (D94 (Subs None None (Some A94) (Some (mat_of [[0]; [0]; [1]])) None None))) A94 (mat_of [[0]; [0]; [1]]) 1%nat ltac:(lia) eq_refl eq_refl eq_refl eq_refl) as (p3 & T3 & Q3).
  exists (ASRS (RSPoly 1 (Some p1)) (AVM MUnbounded (D94 (Subs None (Some V94) (Some (cols_slice V94 0 1)) (Some (cols_slice V94 1 3)) None None)))).
  exists (ASRS (RSPoly 1 (Some p2)) (AVM MUnbounded (D94 (Subs None (Some V94) (Some (cols_slice V94 0 2)) (Some (cols_slice V94 2 3)) None None)))).
  exists (ASRS (RSPoly 1 (Some p3)) (AVM MUnbounded (D94 (Subs None None (Some A94) (Some (mat_of [[0]; [0]; [1]])) None None)))).
  exists p1, p2.
  split; [reflexivity|]. split; [reflexivity|]. split; [exact T1|]. split; [exact T2|]. split; [exact T3|]. split; [reflexivity|]. split; [reflexivity|].
  split; [|split].
  - set (Z := active_points 4 3 1 X94 (cols_slice V94 0 1)) in *.
    assert (UN : unisolvent 1 4 1 Z None).
    { intros q Hq H x. destruct (poly_line q Hq) as (a & b & E). assert (H0 := H 0%nat ltac:(lia)). assert (H1 := H 1%nat ltac:(lia)). rewrite E in H0, H1. cbn in H0, H1.
      rewrite E. assert (a = 0) by lra. assert (b = 0) by lra. subst. ring. }
    destruct (C87_best_fit lstsq_ref 1 Z f94 None 4 1 p1 lstsq_ref_contract eq_refl eq_refl ltac:(lia) ltac:(lia) I Q1) as (_ & E & RQ).
    assert (PV : forall x, poly_value p1 1 x = 1 / 2).
    { apply (E UN (fun _ => 1 / 2)). apply orth_best; [apply (is_poly_ext 1 1 (fun _ => 1 / 2)); [reflexivity|apply is_poly_const]|].
      intros q Hq. destruct (poly_line q Hq) as (a & b & Q). rewrite (sumf_ext 4 _ (fun r => weight_of None r ^ 2 * ((f94.[r, 0%nat] - 1 / 2) * (a + b * Z.[r, 0%nat])))) by (intros; now rewrite Q).
      cbn. field. }
    rewrite RQ. unfold fit_cost. rewrite (sumf_ext 4 _ (fun r => (weight_of None r * (f94.[r, 0%nat] - 1 / 2)) ^ 2)) by (intros; now rewrite PV).
    unfold xdiv. destruct (Req_EM_T _ 0) as [Z0|Z0]; [exfalso; revert Z0; cbn; lra|]. unfold xsub; cbn [xneg xadd]; apply f_equal. cbn. field.
  - set (Z := active_points 4 3 2 X94 (cols_slice V94 0 2)) in *.
    destruct (C87_best_fit lstsq_ref 1 Z f94 None 4 2 p2 lstsq_ref_contract eq_refl eq_refl ltac:(lia) ltac:(lia) I Q2) as ((_ & E) & _ & RQ).
    assert (FC : fit_cost 4 Z f94 None (poly_value p2 2) = 0).
    { apply Rle_antisym; [|apply sumf_nonneg; intros; apply pow2_ge_0]. eapply Rle_trans; [apply (E (fun x => x 1%nat))|].
      - apply is_poly_var; lia.
      - right. unfold fit_cost. cbn. ring. }
    rewrite RQ, FC. unfold xdiv. destruct (Req_EM_T _ 0) as [Z0|Z0]; [exfalso; revert Z0; cbn; lra|]. unfold xsub; cbn [xneg xadd]; apply f_equal. unfold Rdiv. ring.
  - intros P Y HY.
    assert (S : in_span 3 2 2 (cols_slice V94 0 2) A94 -> in_span 3 2 2 A94 (cols_slice V94 0 2) -> unisolvent 1 4 2 (active_points 4 3 2 X94 A94) None -> _)
      by exact (fun I1 I2 UN => C94_same_span solve cholesky fminbound lstsq_ref (AVM MUnbounded (D94 (Subs None (Some V94) (Some (cols_slice V94 0 2)) (Some (cols_slice V94 2 3)) None None)))
        (AVM MUnbounded (D94 (Subs None None (Some A94) (Some (mat_of [[0]; [0]; [1]])) None None))) 1 None None (cols_slice V94 0 2) (cols_slice V94 2 3) A94 (mat_of [[0]; [0]; [1]]) X94 f94 None None 4 3 2 2 1 1 _ _
        lstsq_ref_contract eq_refl eq_refl eq_refl eq_refl eq_refl eq_refl ltac:(lia) ltac:(lia) ltac:(lia) eq_refl eq_refl eq_refl eq_refl I1 I2 UN T2 T3).
    destruct S as (S & _).
    + exists (fun q j => if Nat.eqb j 0 then / 2 else if Nat.eqb q 0 then / 2 else - / 2). intros k j Hk Hj.
      destruct k as [|[|[|]]]; try lia; destruct j as [|[|]]; try lia; cbn; field.
    + exists (fun q j => if Nat.eqb j 0 then 1 else if Nat.eqb q 0 then 1 else -1). intros k j Hk Hj.
      destruct k as [|[|[|]]]; try lia; destruct j as [|[|]]; try lia; cbn; field.
    + intros q Hq H x. destruct (poly_plane q Hq) as (a & b & c & E). assert (H0 := H 0%nat ltac:(lia)). assert (H1 := H 1%nat ltac:(lia)). assert (H2 := H 2%nat ltac:(lia)).
      rewrite E in H0, H1, H2. cbn in H0, H1, H2. rewrite E. assert (a = 0) by lra. assert (b = 0) by lra. assert (c = 0) by lra. subst. ring.
    + destruct (S P Y HY) as (F & F' & E1 & E2 & _ & E3). exists F, F'. auto.
Qed.
