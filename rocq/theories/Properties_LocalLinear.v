(** C110: local linear models estimate gradients, and so the active subspace, to first order in
    the size of the neighbourhoods. *)
From Coq Require Import Reals Lra Lia List Arith ZArith Permutation.
From Verif Require Import Prelude Py NumArr LinAlg Lsq Sorting Spectral M_Misc M_Gradients M_Subspaces P_Misc P_LocalLinear P_Subspaces EighRef Toy Properties_Gradients Properties_Subspaces Properties_Integrate Properties_Stability.
Import ListNotations.
Open Scope R_scope.

(** the squared distance of samples i and c *)
Definition dist2 (X : nd R) (m i c : nat) : R := sumf m (fun j => (X.[i, j] - X.[c, j]) * (X.[i, j] - X.[c, j])).
(** k different samples within r of sample c *)
Definition around (X : nd R) (M m k c : nat) (r : R) (l : list nat) : Prop :=
  NoDup l /\ List.length l = k /\ forall i, In i l -> (i < M)%nat /\ dist2 X m i c <= r * r.

(** d: the gradients at the samples; they change by at most K per unit of distance *)
Definition smooth_samples (X f : nd R) (M m : nat) (d : nat -> nat -> R) (K : R) : Prop :=
  forall i c, (i < M)%nat -> (c < M)%nat -> Rabs (f.[i, 0%nat] - f.[c, 0%nat] - sumf m (fun j => d c j * (X.[i, j] - X.[c, j]))) <= K / 2 * dist2 X m i c.
(** every sample has q others within r, and no q samples so near it are close to a plane: the sum
    of the squares of an affine function over them is at least (s r)^2 times that of its slope *)
Definition spread_samples (X : nd R) (M m q : nat) (r s : R) : Prop :=
  (forall c, (c < M)%nat -> exists l, around X M m (S q) c r l) /\
  (forall c l, (c < M)%nat -> around X M m q c r l -> forall a b, (s * r) ^ 2 * sumf m (fun j => b j ^ 2) <= sumf q (fun i => (a + sumf m (fun j => b j * X.[nth i l 0%nat, j])) ^ 2)).

(** the fitted values are at most as far from those of another model as the data is *)
Lemma lsq_contracts : forall p q A b u v, lsq_min p q A b u -> sumf p (fun i => sumf q (fun j => A i j * (u j - v j)) * sumf q (fun j => A i j * (u j - v j))) <= rss p q A b v.
Proof.
  intros p q A b u v H. assert (N := min_normal _ _ _ _ _ H).
  assert (E : rss p q A b v = rss p q A b (fun j => u j + (v j - u j))).
  { unfold rss, resid. apply sumf_ext; intros i Hi. rewrite (sumf_ext q (fun j => A i j * (u j + (v j - u j))) (fun j => A i j * v j)) by (intros; ring). reflexivity. }
  rewrite E, rss_add. rewrite (sumf_zero q (fun j => (v j - u j) * _)) by (intros j Hj; rewrite N by auto; ring).
  assert (P : 0 <= rss p q A b u) by (apply sumf_nonneg; intros; apply Rle_0_sqr).
  rewrite (sumf_ext p (fun i => sumf q (fun j => A i j * (v j - u j)) * sumf q (fun j => A i j * (v j - u j))) (fun i => sumf q (fun j => A i j * (u j - v j)) * sumf q (fun j => A i j * (u j - v j)))); [lra|].
  intros i Hi. assert (Q : sumf q (fun j => A i j * (v j - u j)) = - sumf q (fun j => A i j * (u j - v j))); [|rewrite Q; ring].
  replace (- sumf q (fun j => A i j * (u j - v j))) with (-1 * sumf q (fun j => A i j * (u j - v j))) by ring. rewrite <- sumf_scal_l. apply sumf_ext. intros. ring.
Qed.

Lemma skipn_next : forall A (s : list A) c, skipn (S c) s = tl (skipn c s).
Proof. intros A s. induction s as [|x s IH]; intros [|c]; try reflexivity. exact (IH c). Qed.

(** the samples used are among the p+1 nearest *)
Lemma used_near : forall X M m p c s r, by_distance X M c s -> ncols X = m -> (p < M)%nat -> (exists l, around X M m (S p) c r l) ->
  forall k, In k (firstn p (firstn c s ++ skipn (S c) s)) -> sqdist X k c <= r * r.
Proof.
  intros X M m p c s r [P Q] HM Hp (l & ND & LL & HL) k Hk. assert (LS : List.length s = M) by (rewrite (Permutation_length P), seq_length; auto).
  assert (IK : In k (firstn (S p) s)).
  { destruct (Nat.le_gt_cases p c) as [Hc|Hc].
    - rewrite firstn_app in Hk. rewrite firstn_firstn, Nat.min_l in Hk by auto. apply in_app_or in Hk. destruct Hk as [Hk|Hk].
      + replace (firstn (S p) s) with (firstn p s ++ firstn 1 (skipn p s)); [apply in_or_app; now left|]. rewrite <- (firstn_skipn p s) at 3. rewrite firstn_app, firstn_firstn, Nat.min_r by lia. rewrite firstn_length_le by lia. now replace (S p - p)%nat with 1%nat by lia.
      + rewrite firstn_length in Hk. replace (p - Nat.min c (List.length s))%nat with 0%nat in Hk by lia. destruct Hk.
    - assert (E : firstn (S p) s = firstn c s ++ firstn (S p - c) (skipn c s)). { rewrite <- (firstn_skipn c s) at 1. rewrite firstn_app, firstn_firstn, Nat.min_r by lia. now rewrite firstn_length_le by lia. }
      rewrite E. rewrite firstn_app in Hk. rewrite firstn_firstn, Nat.min_r in Hk by lia. rewrite firstn_length_le in Hk by lia. apply in_app_or in Hk. apply in_or_app. destruct Hk as [Hk|Hk]; [now left|right].
      destruct (skipn c s) as [|x t] eqn:ES; [assert (Z := skipn_length c s); rewrite ES in Z; simpl in Z; lia|].
      replace (skipn (S c) s) with t in Hk by (rewrite skipn_next, ES; reflexivity). replace (S p - c)%nat with (S (p - c)) by lia. right. exact Hk. }
  destruct (In_nth _ _ 0%nat IK) as (a & Ha & Ea). rewrite firstn_length_le in Ha by lia.
  assert (Ea' : nth a s 0%nat = k). { rewrite <- Ea. rewrite <- (firstn_skipn (S p) s) at 1. rewrite app_nth1; [reflexivity|rewrite firstn_length_le; lia]. }
  destruct (Rle_dec (sqdist X k c) (r * r)) as [|N]; [assumption|exfalso].
  assert (SUB : incl l (firstn a s)).
  { intros i Hi. destruct (HL i Hi) as [Hi1 Hi2]. assert (In i s) as Is by (apply (Permutation_in _ (Permutation_sym P)), in_seq; lia). destruct (In_nth _ _ 0%nat Is) as (b & Hb & Eb).
    destruct (Nat.lt_ge_cases b a) as [LT|GE].
    - assert (Eb' : nth b (firstn a s) 0%nat = i). { rewrite <- Eb. rewrite <- (firstn_skipn a s) at 2. rewrite app_nth1; [reflexivity|rewrite firstn_length_le; lia]. }
      rewrite <- Eb'. apply nth_In. rewrite firstn_length_le; lia.
    - exfalso. apply N. unfold dist2 in Hi2. rewrite <- HM in Hi2. fold (sqdist X i c) in Hi2. destruct (Nat.eq_dec a b) as [->|NE]; [replace k with i by congruence; exact Hi2|].
      assert (O := Q a b ltac:(lia) ltac:(lia)). rewrite Ea', Eb in O. lra. }
  assert (LE := NoDup_incl_length ND SUB). rewrite LL, firstn_length_le in LE by lia. lia.
Qed.

Theorem C110_local_linear : forall argsort lstsq (G : gen) (U : Type) X f p weights M m q (d : nat -> nat -> R) K r s (w : world G U (nd R)) df w',
  argsort_contract argsort -> lstsq_contract lstsq -> shape X = [M; m] -> shape f = [M; 1%nat] -> distinct_rows X M ->
  match weights with None => True | Some wt => shape wt = [M; 1%nat] /\ forall i, (i < M)%nat -> 0 < wt.[i, 0%nat] end ->
  (* q neighbours are used *)
  (exists z, p = Some (IsA z) /\ Z.to_nat z = q) \/ (p = None /\ q = Nat.min (17 * m / 10) M) -> (q < M)%nat ->
  0 <= K -> smooth_samples X f M m d K -> 0 < r -> 0 < s -> spread_samples X M m q r s ->
  local_linear_gradients argsort lstsq X f p weights w = (Ok df, w') ->
  exists MM c, shape df = [MM; m] /\ (forall i, (i < MM)%nat -> (c i < M)%nat /\ sumf m (fun j => (df.[i, j] - d (c i) j) * (df.[i, j] - d (c i) j)) <= INR q * (K * r / (2 * s)) ^ 2).
Proof.
  intros argsort lstsq G U X f p weights M m q d K r s w df w' HA HL HX Hf HD Hw HQ Hq HK HT Hr Hs [HN HS] H.
  destruct (ll_rows argsort lstsq X f _ weights M m w df w' HX H) as (pz & MM & E1 & E2 & E3 & E4 & E5).
  assert (EQ : Z.to_nat pz = q). { destruct HQ as [(z & -> & Hz)|(-> & Hz)]; cbn [ll_p] in E1; injection E1 as <-; [exact Hz|rewrite Nat2Z.id; auto]. }
  rewrite EQ in E5.
  assert (ROW : forall i, (i < MM)%nat -> exists c, (c < M)%nat /\ sumf m (fun j => (df.[i, j] - d c j) * (df.[i, j] - d c j)) <= INR q * (K * r / (2 * s)) ^ 2).
  { intros i Hi. destruct (E5 i Hi) as (c & u & Hc & Hfit & Hrow). exists c. split; [exact Hc|].
    destruct (ll_ind_distinct argsort X M m c HA HX Hc HD) as (sl & HB & EI).
    match type of Hfit with ll_fit _ _ _ _ ?T _ _ = _ => assert (HP : 0 < T.[c, 0%nat]) by (destruct weights as [w0|]; [now apply Hw|rewrite at_mk2; apply Rinv_0_lt_compat, lt_0_INR; lia]) end.
    destruct (ll_fit_spec argsort lstsq HL X f _ M m q c u HX Hf HP ltac:(lia) Hfit) as (LS & SU & HU). set (l := firstn q (ll_ind argsort X c)) in *.
    assert (IN : forall k, In k l -> (k < M)%nat /\ dist2 X m k c <= r * r).
    { intros k Hk. split.
      - apply firstn_In in Hk. apply (ll_ind_lt argsort HA) in Hk. now rewrite (nrows_shape2 _ _ _ _ HX) in Hk.
      - assert (S := used_near X M m q c sl r HB (ncols_shape2 _ _ _ _ HX) Hq (HN c Hc) k). unfold l in Hk. rewrite EI in Hk. specialize (S Hk). unfold sqdist in S. rewrite (ncols_shape2 _ _ _ _ HX) in S. exact S. }
    assert (AR : around X M m q c r l). { split; [|split; [exact LS|exact IN]]. unfold l. apply firstn_NoDup, (ll_ind_NoDup argsort HA). }
    set (v := fun j => match j with O => f.[c, 0%nat] - sumf m (fun k => d c k * X.[c, k]) | S k => d c k end).
    assert (CO := lsq_contracts _ _ _ _ _ v HU). set (b := fun j => u.[S j, 0%nat] - d c j). set (a := u.[0%nat, 0%nat] - v 0%nat).
    assert (SP := HS c l Hc AR a b).
    assert (LHS : sumf q (fun i0 => sumf (S m) (fun j => design X l i0 j * (u.[j, 0%nat] - v j)) * sumf (S m) (fun j => design X l i0 j * (u.[j, 0%nat] - v j))) = sumf q (fun i0 => (a + sumf m (fun j => b j * X.[nth i0 l 0%nat, j])) ^ 2)).
    { apply sumf_ext. intros i0 _. assert (Z : sumf (S m) (fun j => design X l i0 j * (u.[j, 0%nat] - v j)) = a + sumf m (fun j => b j * X.[nth i0 l 0%nat, j])); [|rewrite Z; ring].
      rewrite sumf_shift. f_equal; [unfold design, a; ring|]. apply sumf_ext. intros j _. unfold design, b, v. ring. }
    cbv beta in CO. rewrite LHS in CO. clear LHS.
    assert (RSS : rss q (S m) (design X l) (fun i0 => f.[nth i0 l 0%nat, 0%nat]) v <= INR q * (K / 2 * (r * r)) ^ 2).
    { unfold rss. rewrite <- sumf_const. apply sumf_le. intros i0 Hi0. assert (Ik : In (nth i0 l 0%nat) l) by (apply nth_In; rewrite LS; exact Hi0). destruct (IN _ Ik) as [Ik1 Ik2]. set (k := nth i0 l 0%nat) in *.
      assert (ER : resid (S m) (design X l) (fun i0 => f.[nth i0 l 0%nat, 0%nat]) v i0 = - (f.[k, 0%nat] - f.[c, 0%nat] - sumf m (fun j => d c j * (X.[k, j] - X.[c, j])))).
      { unfold resid. rewrite sumf_shift. fold k. rewrite (sumf_ext m (fun j => d c j * (X.[k, j] - X.[c, j])) (fun j => d c j * X.[k, j] + - 1 * (d c j * X.[c, j]))) by (intros; ring). rewrite sumf_plus, sumf_scal_l.
        rewrite (sumf_ext m (fun j => design X l i0 (S j) * v (S j)) (fun j => d c j * X.[k, j])) by (intros; unfold design, v, k; ring). unfold design, v. ring. }
      rewrite ER. specialize (HT k c Ik1 Hc). set (e := f.[k, 0%nat] - f.[c, 0%nat] - _) in *.
      assert (B : Rabs e <= K / 2 * (r * r)) by (eapply Rle_trans; [exact HT|apply Rmult_le_compat_l; lra]).
      replace (- e * - e) with (Rabs e * Rabs e) by (rewrite <- Rabs_mult, Rabs_pos_eq by apply Rle_0_sqr; ring). assert (0 <= Rabs e) by apply Rabs_pos. simpl. nra. }
    rewrite (sumf_ext m (fun j => (df.[i, j] - d c j) * (df.[i, j] - d c j)) (fun j => b j ^ 2)) by (intros j Hj; rewrite Hrow by auto; unfold b; ring).
    assert (PS : 0 < (s * r) ^ 2) by (apply pow_lt, Rmult_lt_0_compat; auto).
    apply (Rmult_le_reg_l ((s * r) ^ 2)); [exact PS|]. replace ((s * r) ^ 2 * (INR q * (K * r / (2 * s)) ^ 2)) with (INR q * (K / 2 * (r * r)) ^ 2) by (field; lra). lra. }
  exists MM. destruct (finite_choice nat 0%nat MM _ ROW) as (c & Hc). exists c. split; [exact E4|exact Hc].
Qed.
Print Assumptions C110_local_linear.

(** hence the eigenvalues and the subspace, compared with those of the gradients at the same
    samples *)
Theorem C110_active_subspace : forall argsort lstsq (G : gen) (U : Type) X f p weights M m q (d : nat -> nat -> R) K L r s (w : world G U (nd R)) df w',
  argsort_contract argsort -> lstsq_contract lstsq -> shape X = [M; m] -> shape f = [M; 1%nat] -> distinct_rows X M ->
  match weights with None => True | Some wt => shape wt = [M; 1%nat] /\ forall i, (i < M)%nat -> 0 < wt.[i, 0%nat] end ->
  (exists z, p = Some (IsA z) /\ Z.to_nat z = q) \/ (p = None /\ q = Nat.min (17 * m / 10) M) -> (q < M)%nat ->
  0 <= K -> smooth_samples X f M m d K -> 0 < r -> 0 < s -> spread_samples X M m q r s ->
  0 <= L -> (forall i, (i < M)%nat -> sumf m (fun j => d i j * d i j) <= L * L) ->
  local_linear_gradients argsort lstsq X f p weights w = (Ok df, w') ->
  exists MM c, (forall i, (i < MM)%nat -> (c i < M)%nat) /\ shape df = [MM; m] /\ let df0 := mk2 MM m (fun i j => d (c i) j) in
  forall eigh argsort0 eigh' argsort' wts e0 V0 e V, eigh_contract eigh -> argsort_contract argsort0 -> eigh_contract eigh' -> argsort_contract argsort' ->
    shape wts = [MM; 1%nat] -> (forall t, (t < MM)%nat -> 0 <= wts.[t, 0%nat]) ->
    active_subspace eigh argsort0 df0 wts = Ok (e0, V0) -> active_subspace eigh' argsort' df wts = Ok (e, V) ->
    let gamma := sqrt (INR q) * (K * r / (2 * s)) in let eps := gamma * (2 * L + gamma) * sumf MM (fun t => wts.[t, 0%nat]) in
    (forall j, (j < m)%nat -> Rabs (e.[j, 0%nat] - e0.[j, 0%nat]) <= eps) /\
    (forall norm2 k P, norm2_contract norm2 -> (1 <= k)%nat -> (k < m)%nat -> eps < e0.[(k - 1)%nat, 0%nat] - e0.[k, 0%nat] -> shape P = [k; (m - k)%nat] ->
       (forall a b, (a < k)%nat -> (b < m - k)%nat -> P.[a, b] = sumf m (fun i => V0.[i, a] * V.[i, (k + b)%nat])) ->
       norm2 P <= eps / (e0.[(k - 1)%nat, 0%nat] - e0.[k, 0%nat] - eps)).
Proof.
  intros argsort lstsq G U X f p weights M m q d K L r s w df w' HA HL HX Hf HD Hw HQ Hq HK HT Hr Hs HS HL0 HLd H.
  destruct (C110_local_linear argsort lstsq G U X f p weights M m q d K r s w df w' HA HL HX Hf HD Hw HQ Hq HK HT Hr Hs HS H) as (MM & c & Sd & Hc). exists MM, c. split; [intros i Hi; exact (proj1 (Hc i Hi))|]. split; [exact Sd|].
  intros df0 eigh argsort0 eigh' argsort' wts e0 V0 e V HE HA0 HE' HA' Sw Hp H0 HV gamma eps.
  assert (G0 : 0 <= gamma). { unfold gamma. apply Rmult_le_pos; [apply sqrt_pos|]. apply Rmult_le_pos; [apply Rmult_le_pos; lra|]. left. apply Rinv_0_lt_compat. lra. }
  assert (BL : forall t, (t < MM)%nat -> sumf m (fun i => df0.[t, i] * df0.[t, i]) <= L * L). { intros t Ht. unfold df0. rewrite (sumf_ext m _ (fun i => d (c t) i * d (c t) i)) by (intros; now rewrite !at_mk2). apply HLd, Hc, Ht. }
  assert (Bh : forall t, (t < MM)%nat -> sumf m (fun i => (df.[t, i] - df0.[t, i]) * (df.[t, i] - df0.[t, i])) <= gamma * gamma).
  { intros t Ht. unfold df0. rewrite (sumf_ext m _ (fun i => (df.[t, i] - d (c t) i) * (df.[t, i] - d (c t) i))) by (intros; now rewrite !at_mk2). replace (gamma * gamma) with (INR q * (K * r / (2 * s)) ^ 2); [apply Hc, Ht|].
    unfold gamma. rewrite <- (sqrt_sqrt (INR q) (pos_INR q)) at 1. ring. }
  split.
  - exact (C72_eigenvalues_stable eigh argsort0 eigh' argsort' MM m df0 df wts e0 V0 e V gamma L HE HA0 HE' HA' eq_refl Sd Sw Hp G0 HL0 BL Bh H0 HV).
  - intros norm2 k P HN Hk Hkm HG SP EP.
    exact (C72_subspace_stable eigh argsort0 eigh' argsort' norm2 MM m df0 df wts e0 V0 e V gamma L k P HE HA0 HE' HA' HN eq_refl Sd Sw Hp G0 HL0 BL Bh H0 HV Hk Hkm HG SP EP).
Qed.
Print Assumptions C110_active_subspace.

(** f = x_0^2 / 2 at the corners of the unit square, with three neighbours: K = 1, r = 3/2, s = 1/3;
    each row of gradients is within sqrt 3 * 9/4 of (x_0, 0) *)
Definition X110 : nd R := mat_of [[0; 0]; [1; 0]; [0; 1]; [1; 1]].
Definition f110 : nd R := mat_of [[0]; [1 / 2]; [0]; [1 / 2]].
Lemma d110 : forall i c, dist2 X110 2 i c = (X110.[i, 0%nat] - X110.[c, 0%nat]) * (X110.[i, 0%nat] - X110.[c, 0%nat]) + (X110.[i, 1%nat] - X110.[c, 1%nat]) * (X110.[i, 1%nat] - X110.[c, 1%nat]).
Proof. intros. unfold dist2. cbn [sumf]. ring. Qed.

Example C110_case : smooth_samples X110 f110 4 2 (fun c j => match j with O => X110.[c, 0%nat] | _ => 0 end) 1 /\ spread_samples X110 4 2 3 (3 / 2) (1 / 3) /\
  exists df w', local_linear_gradients argsort_ref lstsq_ref X110 f110 (Some (IsA 3%Z)) None (toy_world (U:=unit) (L:=nd R) tt) = (Ok df, w') /\ (0 < nrows df)%nat /\
    exists c, (c < 4)%nat /\ (df.[0%nat, 0%nat] - X110.[c, 0%nat]) * (df.[0%nat, 0%nat] - X110.[c, 0%nat]) + df.[0%nat, 1%nat] * df.[0%nat, 1%nat] <= 3 * (9 / 4) ^ 2.
Proof.
  assert (NEAR : forall i c, (i < 4)%nat -> (c < 4)%nat -> dist2 X110 2 i c <= 3 / 2 * (3 / 2)).
  { intros i c Hi Hc. rewrite d110. do 4 (destruct i as [|i]; [do 4 (destruct c as [|c]; [cbn; lra|]); lia|]). lia. }
  assert (SM : smooth_samples X110 f110 4 2 (fun c j => match j with O => X110.[c, 0%nat] | _ => 0 end) 1).
  { intros i c Hi Hc. rewrite d110. cbn [sumf]. do 4 (destruct i as [|i]; [do 4 (destruct c as [|c]; [cbn; unfold Rabs; destruct (Rcase_abs _); lra|]); lia|]). lia. }
  assert (SP : spread_samples X110 4 2 3 (3 / 2) (1 / 3)).
  { split.
    - intros c Hc. exists (seq 0 4). split; [apply seq_NoDup|]. split; [reflexivity|]. intros i Hi. apply in_seq in Hi. split; [lia|]. apply NEAR; lia.
    - intros c l Hc (ND & LL & HL) a b. destruct l as [|x [|y [|z [|t l]]]]; try discriminate LL. assert (Hx := proj1 (HL x ltac:(cbn; auto))). assert (Hy := proj1 (HL y ltac:(cbn; auto))). assert (Hz := proj1 (HL z ltac:(cbn; auto))). clear HL LL.
      assert (N1 : x <> y /\ x <> z /\ y <> z). { inversion ND as [|? ? N1 ND']; inversion ND' as [|? ? N2 _]; cbn in N1, N2; intuition. } clear ND. cbn [sumf nth]. set (p := b 0%nat). set (q := b 1%nat). clearbody p q. destruct N1 as (N1 & N2 & N3).
      do 4 (destruct x as [|x]; [do 4 (destruct y as [|y]; [do 4 (destruct z as [|z]; [try (exfalso; (apply N1; reflexivity) || (apply N2; reflexivity) || (apply N3; reflexivity)); cbn; assert (Q1 := Rle_0_sqr (3 * a + p + q)); assert (Q2 := Rle_0_sqr (3 * a + 2 * p + q)); assert (Q3 := Rle_0_sqr (3 * a + p + 2 * q)); assert (Q4 := Rle_0_sqr (3 * a + 2 * p + 2 * q)); assert (Q5 := Rle_0_sqr (p - q)); assert (Q6 := Rle_0_sqr (p + q)); assert (Q7 := Rle_0_sqr p); assert (Q8 := Rle_0_sqr q); unfold Rsqr in *; nra|]); lia|]); lia|]). lia. }
  split; [exact SM|]. split; [exact SP|].
  assert (HD : distinct_rows X110 4).
  { intros i j Hi Hj Hij. change (dist2 X110 2 i j <> 0). rewrite d110. do 4 (destruct i as [|i]; [do 4 (destruct j as [|j]; [try congruence; cbn; lra|]); lia|]). lia. }
  destruct (C08_returns argsort_ref lstsq_ref toy_gen unit X110 f110 None 4 2 3%Z (toy_world tt) argsort_ref_contract lstsq_ref_total eq_refl eq_refl ltac:(lia) ltac:(lia) I HD) as (df & w' & E).
  exists df, w'. split; [exact E|].
  assert (C110_rows := C110_local_linear argsort_ref lstsq_ref toy_gen unit X110 f110 (Some (IsA 3%Z)) None 4 2 3 _ 1 (3 / 2) (1 / 3) (toy_world tt) df w' argsort_ref_contract lstsq_ref_contract eq_refl eq_refl HD I
     (or_introl (ex_intro _ 3%Z (conj eq_refl eq_refl))) ltac:(lia) ltac:(lra) SM ltac:(lra) ltac:(lra) SP E). destruct C110_rows as (MM & c & Sd & Hc).
  destruct (C08_row_count argsort_ref lstsq_ref toy_gen unit X110 f110 (Some (IsA 3%Z)) None 4 2 (toy_world tt) df w' eq_refl E) as (KK & [Hk _] & Sd'). rewrite Sd in Sd'. injection Sd' as EM.
  assert (HM : (0 < MM)%nat).
  { rewrite EM. apply Nat.min_glb_lt; [|lia]. apply INR_lt. cbn [INR] in Hk |- *. assert (0 < ln (1 + 1)); [|lra]. rewrite <- ln_1. apply ln_increasing; lra. }
  split; [rewrite (nrows_shape2 _ _ _ _ Sd); exact HM|]. destruct (Hc 0%nat HM) as [Hc1 Hc2]. exists (c 0%nat). split; [exact Hc1|]. cbn [sumf] in Hc2. simpl INR in Hc2. simpl pow in Hc2 |- *.
  match type of Hc2 with _ <= ?t => replace (3 * (9 / 4 * (9 / 4 * 1))) with t by field end. rewrite Rminus_0_r in Hc2. lra.
Qed.
