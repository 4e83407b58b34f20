(** C82: the recurrence coefficients of utils/quadrature.py are those of the
    Jacobi polynomials on [l, r] and of the Hermite polynomials. *)
From Coq Require Import String Reals Lra Lia List Arith ZArith Bool FunctionalExtensionality.
From Verif Require Import Prelude Py NumArr M_Misc M_RespSurf M_Quadrature P_Quadrature Integral GaussRules JacobiPoly Properties_Quadrature.
Import ListNotations.
Open Scope R_scope.

(** the monic polynomials a table of coefficients defines:
    p_(k+1) = (x - ab[k,0]) p_k - ab[k,1] p_(k-1) *)
Definition poly_of (ab : nd R) : nat -> R -> R := mono (fun k => ab.[k, 0%nat]) (fun k => ab.[k, 1%nat]).
Definition norm_of (ab : nd R) (j : nat) : R := prodf j (fun k => ab.[(k + 1)%nat, 1%nat]).

Lemma jac_table : forall N l r a b ab, (1 <= N)%Z -> -1 < a -> -1 < b -> r_jacobi (IsA N) l r a b = Ok ab ->
  forall k, (k <= Z.to_nat N)%nat ->
    ab.[k, 0%nat] = (r - l) / 2 * jal a b k + (l + (r - l) / 2) /\
    ab.[k, 1%nat] = match k with O => 1 | _ => (r - l) / 2 * ((r - l) / 2) * jbe a b k end.
Proof.
  intros N l r a b ab HN Ha Hb E k Hk. unfold r_jacobi in E. destruct (Z.leb_spec N 0); [lia|]. injection E as <-.
  rewrite !at_mk2. destruct k as [|[|k]].
  - split; [|reflexivity]. unfold jal. reflexivity.
  - assert (U := ju_pos a b Ha Hb 0). unfold jal, jbe, ju in *. simpl INR in *. split; field; lra.
  - assert (U := ju_big a b Ha Hb k). assert (U2 := ju_S a b (S (S k))). unfold jal, jbe.
    replace (INR (S (S k) + 1)) with (INR (S (S (S k)))) by (f_equal; lia).
    replace (2 * INR (S (S (S k))) + a + b) with (ju a b (S (S k)) + 2) by (rewrite <- U2; reflexivity).
    replace (2 * INR (S (S k)) + a + b) with (ju a b (S (S k))) by reflexivity.
    split; field; lra.
Qed.

Lemma jac_poly : forall N l r a b ab, (1 <= N)%Z -> l < r -> -1 < a -> -1 < b -> r_jacobi (IsA N) l r a b = Ok ab ->
  forall k x, (k <= Z.to_nat N + 1)%nat ->
    poly_of ab k x = ((r - l) / 2) ^ k * mono (jal a b) (jbe a b) k ((x - (l + (r - l) / 2)) / ((r - l) / 2)).
Proof.
  intros N l r a b ab HN Hlr Ha Hb E k x Hk. rewrite <- mono_scale by lra. unfold poly_of.
  apply (mono_ext _ _ _ _ (Z.to_nat N + 1)); auto. intros j Hj. apply (jac_table N l r a b ab); auto. lia.
Qed.
Lemma jac_norm : forall N l r a b ab, (1 <= N)%Z -> -1 < a -> -1 < b -> r_jacobi (IsA N) l r a b = Ok ab ->
  forall k, (k <= Z.to_nat N)%nat -> norm_of ab k = ((r - l) / 2) ^ k * ((r - l) / 2) ^ k * jh a b k.
Proof.
  intros N l r a b ab HN Ha Hb E. unfold norm_of. induction k as [|k IH]; intros Hk; [simpl; ring|].
  cbn [prodf]. rewrite IH by lia. rewrite (proj2 (jac_table N l r a b ab HN Ha Hb E (k + 1) ltac:(lia))).
  replace (k + 1)%nat with (S k) by lia. cbn [jh]. simpl pow. ring.
Qed.

(** r_jacobi: N+1 rows, and the polynomials they define are orthogonal on
    [l, r] for the weight (r-x)^a (x-l)^b, with ab[k,1] the ratio of
    consecutive squared norms.  Row k is exactly what is used to form p_(k+1). *)
Theorem C82_jacobi : forall N l r a b, (1 <= N)%Z -> l < r -> -1 < a -> -1 < b ->
  exists ab, r_jacobi (IsA N) l r a b = Ok ab /\ shape ab = [(Z.to_nat N + 1)%nat; 2%nat] /\
    ab.[0%nat, 1%nat] = 1 /\ (forall k, (1 <= k <= Z.to_nat N)%nat -> 0 < ab.[k, 1%nat]) /\
    (forall i j, (i < j <= Z.to_nat N + 1)%nat -> weighted_integral l r a b (fun x => poly_of ab j x * poly_of ab i x) 0) /\
    (forall j, (j <= Z.to_nat N)%nat -> weighted_integral l r a b (fun x => poly_of ab j x * poly_of ab j x - norm_of ab j) 0).
Proof.
  intros N l r a b HN Hlr Ha Hb.
  assert (E : exists ab, r_jacobi (IsA N) l r a b = Ok ab /\ shape ab = [(Z.to_nat N + 1)%nat; 2%nat]).
  { unfold r_jacobi. destruct (Z.leb_spec N 0); [lia|]. eexists. split; reflexivity. }
  destruct E as (ab & E & Sh). exists ab. split; [exact E|]. split; [exact Sh|].
  assert (T := jac_table N l r a b ab HN Ha Hb E). split; [exact (proj2 (T 0%nat ltac:(lia)))|].
  assert (Jp := jac_poly N l r a b ab HN Hlr Ha Hb E). set (s := (r - l) / 2) in *. assert (Hs : 0 < s) by (unfold s; lra).
  split; [|split].
  - intros [|k] Hk; [lia|]. rewrite (proj2 (T (S k) ltac:(lia))).
    assert (P0 := jh_pos a b Ha Hb k). assert (P1 := jh_pos a b Ha Hb (S k)). cbn [jh] in P1.
    apply Rmult_lt_0_compat; [nra|]. apply (Rmult_lt_reg_r (jh a b k)); lra.
  - intros i j Hij. destruct (good_all a b Ha Hb j) as [G _].
    assert (W := weighted_integral_scal _ _ _ _ _ (s ^ j * s ^ i) _ (nul_integral l r a b _ Hlr Ha Hb (G i ltac:(lia)))).
    rewrite Rmult_0_r in W. eapply weighted_integral_ext; [|exact W].
    intros x. cbv beta. rewrite (Jp j x), (Jp i x) by lia. fold s. ring.
  - intros j Hj. destruct (good_all a b Ha Hb j) as [_ G].
    assert (W := weighted_integral_scal _ _ _ _ _ (s ^ j * s ^ j) _ (nul_integral l r a b _ Hlr Ha Hb G)).
    rewrite Rmult_0_r in W. eapply weighted_integral_ext; [|exact W].
    intros x. cbv beta. rewrite (Jp j x), (jac_norm N l r a b ab) by (auto; lia). fold s. ring.
Qed.
Print Assumptions C82_jacobi.

(** the integral in that statement has at most one value *)
Theorem C82_integral_unique : forall l r a b f L L', l < r ->
  weighted_integral l r a b f L -> weighted_integral l r a b f L' -> L = L'.
Proof. exact weighted_integral_unique. Qed.
Print Assumptions C82_integral_unique.

(** r_hermite, from N = 2 on: the polynomials are orthogonal for the standard
    Gaussian, the j-th of squared norm ab[1,1] ... ab[j,1] *)
Theorem C82_hermite : forall N, (2 <= N)%Z ->
  exists ab, r_hermite (IsA N) = Ok ab /\ shape ab = [(Z.to_nat N + 1)%nat; 2%nat] /\ ab.[0%nat, 1%nat] = 1 /\
    (forall i j, (i < j <= Z.to_nat N + 1)%nat -> gaussian_mean (fun x => poly_of ab j x * poly_of ab i x) 0) /\
    (forall j, (j <= Z.to_nat N)%nat -> gaussian_mean (fun x => poly_of ab j x * poly_of ab j x) (norm_of ab j)).
Proof.
  intros N HN. destruct (r_hermite_spec N ltac:(lia)) as (ab & E & Sh & A0 & A1 & A2). exists ab. split; [exact E|]. split; [exact Sh|]. split; [exact A2|].
  assert (Pe : forall k x, (k <= Z.to_nat N + 1)%nat -> poly_of ab k x = he k x).
  { intros [|[|k]] x Hk; unfold poly_of, he.
    - now rewrite !mono_0.
    - rewrite !mono_1, A0 by lia. reflexivity.
    - assert (G : forall j, (S j <= Z.to_nat N + 1)%nat -> forall x, mono (fun k => ab.[k, 0%nat]) (fun k => ab.[k, 1%nat]) j x = mono hal INR j x /\
          mono (fun k => ab.[k, 0%nat]) (fun k => ab.[k, 1%nat]) (S j) x = mono hal INR (S j) x).
      { induction j as [|j IH]; intros Hj y; [rewrite !mono_0, !mono_1, A0 by lia; auto|].
        destruct (IH ltac:(lia) y) as [I1 I2]. split; auto. rewrite !mono_SS, I1, I2, A0, A1 by lia. reflexivity. }
      apply (G (S k) ltac:(lia) x). }
  assert (Nm : forall j, (j <= Z.to_nat N)%nat -> norm_of ab j = INR (fact j)).
  { unfold norm_of. induction j as [|j IH]; intros Hj; [reflexivity|]. cbn [prodf]. rewrite IH, A1 by lia.
    change (fact (S j)) with (S j * fact j)%nat. rewrite mult_INR, Nat.add_1_r. ring. }
  assert (Ge : forall f g L, (forall x, f x = g x) -> gaussian_mean g L -> gaussian_mean f L).
  { intros f g L Efg H. assert (Ef : f = g) by (apply FunctionalExtensionality.functional_extensionality; exact Efg). now rewrite Ef. }
  split.
  - intros i j Hij. apply (Ge _ (fun x => he j x * he i x)); [intros; rewrite !Pe by lia; auto|].
    assert (O := he_orthogonal i j ltac:(lia)). destruct (Nat.eqb_spec j i); [lia|auto].
  - intros j Hj. apply (Ge _ (fun x => he j x * he j x)); [intros; rewrite !Pe by lia; auto|].
    assert (O := he_orthogonal j j (le_n j)). rewrite Nat.eqb_refl in O. rewrite Nm by auto. auto.
Qed.
Print Assumptions C82_hermite.

(** N = 1 is different: one row, [0, 1] *)
Theorem C82_hermite_one : exists ab, r_hermite (IsA 1%Z) = Ok ab /\ shape ab = [1%nat; 2%nat] /\ ab.[0%nat, 0%nat] = 0 /\ ab.[0%nat, 1%nat] = 1.
Proof. eexists. repeat split. Qed.
Print Assumptions C82_hermite_one.

(** the docstrings promise N-by-2 arrays; from N = 2 on (r_hermite) and for
    every N (r_jacobi) the array has one row more *)
Theorem C82_rows_refuted :
  (forall N ab, (2 <= N)%Z -> r_hermite (IsA N) = Ok ab -> shape ab <> [Z.to_nat N; 2%nat]) /\
  (forall N l r a b ab, r_jacobi (IsA N) l r a b = Ok ab -> shape ab <> [Z.to_nat N; 2%nat]).
Proof.
  split.
  - intros N ab HN E. destruct (r_hermite_spec N ltac:(lia)) as (ab' & E' & Sh & _). rewrite E in E'. injection E' as ->.
    rewrite Sh. intros K. injection K as K. lia.
  - intros N l r a b ab E. unfold r_jacobi in E. destruct (Z.leb_spec N 0); [discriminate|]. injection E as <-.
    intros K. simpl in K. injection K as K. lia.
Qed.
Print Assumptions C82_rows_refuted.

(** bad N is refused *)
Theorem C82_refused : forall N l r a b, (N <= 0)%Z ->
  r_hermite (IsA N) = Err ValueError /\ r_jacobi (IsA N) l r a b = Err ValueError /\
  r_hermite NotA = Err TypeError /\ r_jacobi NotA l r a b = Err TypeError.
Proof. intros. unfold r_hermite, r_jacobi. destruct (Z.leb_spec N 0); [auto|lia]. Qed.
Print Assumptions C82_refused.

(** weight (3-x)^(1/2) (x-1)^(-1/2) on [1, 3], three rows *)
Example C82_case : exists ab, r_jacobi (IsA 2%Z) 1 3 (1 / 2) (- (1 / 2)) = Ok ab /\
  ab.[0%nat, 0%nat] = 3 / 2 /\ ab.[1%nat, 0%nat] = 2 /\ ab.[1%nat, 1%nat] = 1 / 4 /\ ab.[2%nat, 1%nat] = 1 / 4 /\
  weighted_integral 1 3 (1 / 2) (- (1 / 2)) (fun x => poly_of ab 2 x * poly_of ab 1 x) 0 /\
  poly_of ab 2 0 = 11 / 4.
Proof.
  destruct (C82_jacobi 2 1 3 (1 / 2) (- (1 / 2)) ltac:(lia) ltac:(lra) ltac:(lra) ltac:(lra)) as (ab & E & _ & _ & _ & O & _).
  exists ab. split; [exact E|]. assert (O12 := O 1%nat 2%nat ltac:(simpl; lia)). clear O.
  assert (T := jac_table 2 1 3 (1 / 2) (- (1 / 2)) ab ltac:(lia) ltac:(lra) ltac:(lra) E).
  destruct (T 0%nat ltac:(simpl; lia)) as [T00 T01]. destruct (T 1%nat ltac:(simpl; lia)) as [T10 T11]. destruct (T 2%nat ltac:(simpl; lia)) as [_ T21].
  unfold jal, jbe, ju in *. simpl in T00, T10, T11, T21.
  assert (V00 : ab.[0%nat, 0%nat] = 3 / 2) by (rewrite T00; field). assert (V10 : ab.[1%nat, 0%nat] = 2) by (rewrite T10; field).
  assert (V11 : ab.[1%nat, 1%nat] = 1 / 4) by (rewrite T11; field).
  repeat (split; [assumption|]). split; [rewrite T21; field|]. split; [exact O12|].
  unfold poly_of. rewrite mono_SS, mono_1, mono_0, V00, V10, V11. field.
Qed.
