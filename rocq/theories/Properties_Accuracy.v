(** C75: accuracy of the rules on a bounded domain, against the mean over the random
    points that the code draws (integrals.py 13-80, 180-330) *)
From Coq Require Import String Reals Lra Lia List Arith ZArith Bool.
From Verif Require Import Prelude Py NumArr Toy M_Misc M_SimRunners M_RespSurf M_Gradients M_Subspaces M_Quadrature M_QP M_Domains M_Designs M_ASRS M_Integrals
  Spectral EighRef Sorting P_Misc P_Bootstrap P_SimRunners P_DomSample Properties_ASTrain P_Quadrature P_Domains P_CondExp P_Quiet P_Inverse P_Integrals P_Integrate Perturb
  Properties_Misc Properties_Quadrature Properties_QP Properties_Domains Properties_Zonotope Properties_Designs Properties_Integrals Properties_Integrate.
Import ListNotations.
Open Scope R_scope.

(** *** Lengths *)
Lemma len_scal : forall n c x, len n (fun j => c * x j) = Rabs c * len n x.
Proof.
  intros n c x. unfold len, dot. rewrite (sumf_ext n _ (fun i => (c * c) * (x i * x i))) by (intros; ring). rewrite sumf_scal_l.
  assert (P : 0 <= sumf n (fun i => x i * x i)) by (apply sumf_nonneg; intros; apply Rle_0_sqr).
  rewrite sqrt_mult by (auto; apply Rle_0_sqr). f_equal. apply sqrt_Rsqr_abs.
Qed.
Lemma len_plus : forall n x y, len n (fun j => x j + y j) <= len n x + len n y.
Proof.
  intros n x y. assert (Px := len_nonneg n x). assert (Py := len_nonneg n y). apply len_le; [lra|].
  assert (E : dot n (fun j => x j + y j) (fun j => x j + y j) = dot n x x + 2 * dot n x y + dot n y y).
  { unfold dot. rewrite <- sumf_scal_l, <- !sumf_plus. apply sumf_ext. intros; ring. }
  assert (H := dot_len n x y). assert (H2 := Rle_abs (dot n x y)). assert (Sx := len_sq n x). assert (Sy := len_sq n y). nra.
Qed.
Lemma len_zero : forall n, len n (fun _ => 0) = 0.
Proof. intros n. unfold len, dot. rewrite sumf_zero by (intros; ring). apply sqrt_0. Qed.
Lemma len_sum : forall n k (v : nat -> nat -> R), len n (fun j => sumf k (fun q => v q j)) <= sumf k (fun q => len n (v q)).
Proof.
  intros n k v. induction k; cbn [sumf]; [right; apply len_zero|].
  eapply Rle_trans; [apply len_plus|]. lra.
Qed.

(** *** From weights of cells to a sum over the samples *)
Lemma number_sum : forall n c (z : nat -> Z) i, number n c (fun s => z s = i) -> INR c = sumf n (fun s => if Z.eqb (z s) i then 1 else 0).
Proof.
  intros n c z i (l & ND & <- & H).
  assert (E : List.length l = List.length (filter (fun s => Z.eqb (z s) i) (seq 0 n))).
  { apply Nat.le_antisymm; apply NoDup_incl_length; auto.
    - intros s Hs. apply H in Hs. apply filter_In. rewrite in_seq. split; [lia|]. apply Z.eqb_eq. tauto.
    - apply NoDup_filter, seq_NoDup.
    - intros s Hs. apply filter_In in Hs. rewrite in_seq in Hs. apply H. destruct Hs as [A C]. split; [lia|]. now apply Z.eqb_eq. }
  rewrite E. clear. induction n as [|n IH]; [reflexivity|].
  rewrite seq_S, filter_app, app_length, plus_INR, IH. cbn [sumf plus filter]. destruct (Z.eqb (z n) i); cbn; ring.
Qed.
Lemma cells_sum : forall NX k (loc : nat -> Z) (Q h : nat -> R), (1 <= NX)%nat -> (forall s, (s < NX)%nat -> loc s = (-1)%Z \/ (0 <= loc s < Z.of_nat k)%Z) ->
  (forall i, (i < k)%nat -> exists c, number NX c (fun s => loc s = Z.of_nat i) /\ Q i = INR c / INR NX) ->
  sumf k (fun i => Q i * h i) = sumf NX (fun s => if Z.ltb (loc s) 0 then 0 else h (Z.to_nat (loc s))) / INR NX.
Proof.
  intros NX k loc Q h HX HL HQ. assert (PX : 0 < INR NX) by (apply lt_0_INR; lia).
  rewrite (sumf_ext k _ (fun i => sumf NX (fun s => (if Z.eqb (loc s) (Z.of_nat i) then 1 else 0) * h i) * / INR NX)).
  2: { intros i Hi. destruct (HQ i Hi) as (c & N & ->). rewrite sumf_scal_r, <- (number_sum _ _ _ _ N). unfold Rdiv. ring. }
  rewrite sumf_scal_r, sumf_swap. unfold Rdiv. f_equal. apply sumf_ext. intros s Hs.
  destruct (Z.ltb_spec (loc s) 0) as [C|C].
  - apply sumf_zero. intros i Hi. destruct (Z.eqb_spec (loc s) (Z.of_nat i)); [lia|ring].
  - destruct (HL s Hs) as [A|A]; [lia|]. rewrite (sumf_single k (Z.to_nat (loc s))); [|lia|].
    + rewrite Z2Nat.id, Z.eqb_refl by lia. ring.
    + intros i Hi Hn. destruct (Z.eqb_spec (loc s) (Z.of_nat i)); [lia|ring].
Qed.
(** every sample is either in no cell, and its value is at most b, or its value is within d of that of its cell *)
Lemma cells_error : forall NX k (loc : nat -> Z) (Q h f : nat -> R) d b, (1 <= NX)%nat -> (forall s, (s < NX)%nat -> loc s = (-1)%Z \/ (0 <= loc s < Z.of_nat k)%Z) ->
  (forall i, (i < k)%nat -> exists c, number NX c (fun s => loc s = Z.of_nat i) /\ Q i = INR c / INR NX) ->
  (forall s, (s < NX)%nat -> loc s = (-1)%Z -> Rabs (f s) <= b) ->
  (forall s, (s < NX)%nat -> (0 <= loc s)%Z -> Rabs (h (Z.to_nat (loc s)) - f s) <= d) ->
  Rabs (sumf k (fun i => Q i * h i) - sumf NX f / INR NX) <= d * sumf k Q + b * (1 - sumf k Q).
Proof.
  intros NX k loc Q h f d b HX HL HQ HB HD. assert (PX : 0 < INR NX) by (apply lt_0_INR; lia).
  assert (ES : sumf k Q = sumf NX (fun s => if Z.ltb (loc s) 0 then 0 else 1) / INR NX).
  { rewrite <- (cells_sum NX k loc Q (fun _ => 1)) by auto. apply sumf_ext; intros; ring. }
  rewrite (cells_sum NX k loc Q h HX HL HQ), ES.
  assert (E1 : forall x y, x / INR NX - y / INR NX = (x - y) * / INR NX) by (intros; unfold Rdiv; ring). rewrite E1, <- sumf_minus.
  rewrite Rabs_mult, (Rabs_right (/ INR NX)) by (apply Rle_ge; left; now apply Rinv_0_lt_compat).
  apply Rle_trans with (sumf NX (fun s => d * (if Z.ltb (loc s) 0 then 0 else 1) + b * (1 - (if Z.ltb (loc s) 0 then 0 else 1))) * / INR NX).
  - apply Rmult_le_compat_r; [left; now apply Rinv_0_lt_compat|]. eapply Rle_trans; [apply sumf_abs|]. apply sumf_le. intros s Hs.
    destruct (HL s Hs) as [A|A].
    + rewrite A. cbn. replace (0 - f s) with (- f s) by ring. rewrite Rabs_Ropp. assert (T := HB s Hs A). lra.
    + destruct (Z.ltb_spec (loc s) 0); [lia|]. assert (T := HD s Hs ltac:(lia)). lra.
  - right. rewrite sumf_plus, !sumf_scal_l, sumf_minus, sumf_const. field. lra.
Qed.

(** *** The interval *)
Lemma bin_exists : forall (e : nat -> R) N y, (1 <= N)%nat -> e 0%nat <= y <= e N -> exists i, (i < N)%nat /\ in_bin e N i y.
Proof.
  intros e N y HN [H0 H1]. destruct (Req_dec y (e N)) as [E|E].
  - destruct (Rle_dec (e (N - 1)%nat) y) as [C|C].
    + exists (N - 1)%nat. split; [lia|]. right. split; [lia|]. split; auto.
    + assert (X : exists i, (i < N - 1)%nat /\ e i <= y < e (S i)).
      { assert (C' : y < e (N - 1)%nat) by lra. clear - H0 C'. induction (N - 1)%nat as [|n IH]; [lra|].
        destruct (Rlt_dec y (e n)) as [D|D]; [destruct (IH D) as (i & Hi & X); exists i; split; [lia|auto]|exists n; split; [lia|lra]]. }
      destruct X as (i & Hi & X). exists i. split; [lia|]. now left.
  - assert (C' : y < e N) by lra. clear - H0 C'. assert (X : exists i, (i < N)%nat /\ e i <= y < e (S i)).
    { induction N as [|n IH]; [lra|]. destruct (Rlt_dec y (e n)) as [D|D]; [destruct (IH D) as (i & Hi & X); exists i; split; [lia|auto]|exists n; split; [lia|lra]]. }
    destruct X as (i & Hi & X). exists i. split; [lia|]. now left.
Qed.
Lemma bin_unique : forall (e : nat -> R) N y i i', (forall i j, (i <= j)%nat -> e i <= e j) -> (i < N)%nat -> (i' < N)%nat -> in_bin e N i y -> in_bin e N i' y -> i = i'.
Proof.
  intros e N y i i' Mo Hi Hi' A A'. destruct (Nat.lt_trichotomy i i') as [C|[C|C]]; auto; exfalso.
  - assert (M := Mo (S i) i' ltac:(lia)). destruct A as [A|[A _]]; [|lia]. destruct A' as [A'|[_ A']]; lra.
  - assert (M := Mo (S i') i ltac:(lia)). destruct A' as [A'|[A' _]]; [|lia]. destruct A as [A|[_ A]]; lra.
Qed.

(** N bins: the rule is within half a bin, times the slope, of the mean over the points drawn *)
Theorem C75_interval_rule : forall (G : gen) (U : Type) d m W1 vY vX N NX (w w' : world G U (nd R)) P Q (g : R -> R) K,
  s_W1 (d_subs d) = Some W1 -> shape W1 = [m; 1%nat] -> interval_endpoints W1 = Ok (vY, vX) -> d_vertY d = Some vY -> (1 <= N)%nat -> (1 <= NX)%nat ->
  interval_quadrature_rule d (Z.of_nat N) (Z.of_nat NX) w = (Ok (P, Q), w') ->
  let a := vY.[0%nat, 0%nat] in let b := vY.[1%nat, 0%nat] in
  let y s := sumf m (fun c => nth (s * m + c) (fst (uniforms (-1) 1 (NX * m) (rng w))) 0 * W1.[c, 0%nat]) in
  (forall u v, a <= u <= b -> a <= v <= b -> Rabs (g u - g v) <= K * Rabs (u - v)) ->
  Rabs (sumf N (fun i => Q.[i, 0%nat] * g (P.[i, 0%nat])) - sumf NX (fun s => g (y s)) / INR NX) <= K * ((b - a) / (2 * INR N)).
Proof.
  intros G U d m W1 vY vX N NX w w' P Q g K EW SW EI EV HN HX H a b y HG.
  destruct (C44_interval_rule G U d m W1 vY vX N NX w EW SW EI EV HN HX) as (P' & Q' & E & SP & SQ & E0 & EN & RG & VP & VQ & _ & S1).
  rewrite H in E. injection E as <- <- _. fold a b in E0, EN, RG, VP, VQ. fold y in RG, VQ.
  set (e := fun i => a + INR i * ((b - a) / INR N)) in *.
  assert (PN : 0 < INR N) by (apply lt_0_INR; lia). assert (E0x : e 0%nat = a) by exact E0. assert (ENx : e N = b) by exact EN. clear E0 EN.
  assert (RGx : forall s, (s < NX)%nat -> a <= y s <= b) by exact RG. clear RG.
  assert (VPx : forall i, (i < N)%nat -> P.[i, 0%nat] = (e i + e (S i)) / 2) by exact VP. clear VP.
  assert (Hab : a <= b) by (assert (T := RGx 0%nat ltac:(lia)); lra).
  assert (Hs : 0 <= (b - a) / INR N) by (apply Rmult_le_pos; [lra|left; now apply Rinv_0_lt_compat]).
  assert (Mo : forall i j, (i <= j)%nat -> e i <= e j) by (intros i j Hij; unfold e; apply Rplus_le_compat_l, Rmult_le_compat_r; [exact Hs|now apply le_INR]).
  assert (St : forall i, e (S i) = e i + (b - a) / INR N) by (intros i; unfold e; rewrite S_INR; ring).
  destruct (finite_choice nat 0%nat NX (fun s i => (i < N)%nat /\ in_bin e N i (y s))) as (bin & HB).
  { intros s Hs'. apply bin_exists; auto. change (e 0%nat <= y s <= e N). assert (T := RGx s Hs'). rewrite E0x, ENx; lra. }
  assert (LB : forall i, (i < N)%nat -> a <= e i <= b).
  { intros i Hi. assert (A := Mo 0%nat i ltac:(lia)). assert (B := Mo i N ltac:(lia)). lra. }
  assert (LB' : forall i, (i < N)%nat -> a <= e (S i) <= b).
  { intros i Hi. assert (A := Mo 0%nat (S i) ltac:(lia)). assert (B := Mo (S i) N ltac:(lia)). lra. }
  assert (IN : forall s, (s < NX)%nat -> e (bin s) <= y s <= e (S (bin s))).
  { intros s Hs'. destruct (HB s Hs') as [Hi [A|[A B]]]; [lra|]. rewrite A. lra. }
  assert (R := cells_error NX N (fun s => Z.of_nat (bin s)) (fun i => Q.[i, 0%nat]) (fun i => g (P.[i, 0%nat])) (fun s => g (y s)) (K * ((b - a) / (2 * INR N))) 0 HX).
  cbv beta in R. rewrite S1 in R. eapply Rle_trans; [apply R|right; ring].
  - intros s Hs'. right. destruct (HB s Hs'). lia.
  - intros i Hi. destruct (VQ i Hi) as (c & EQ & NC). exists c. split; [|exact EQ]. eapply number_ext; [|exact NC]. intros s Hs'. cbv beta. destruct (HB s Hs') as [Hb IB]. split.
    + intros T. f_equal. eapply bin_unique; eauto.
    + intros T. apply Nat2Z.inj in T. now rewrite <- T.
  - intros s Hs' C. lia.
  - intros s Hs' _. rewrite Nat2Z.id. destruct (HB s Hs') as [Hb _]. rewrite VPx by auto. assert (T := IN s Hs'). assert (S' := St (bin s)). assert (A := LB _ Hb). assert (B := LB' _ Hb).
    assert (L1 := HG ((e (bin s) + e (S (bin s))) / 2) (y s) ltac:(lra) ltac:(assert (T' := RGx s Hs'); lra)).
    eapply Rle_trans; [exact L1|].
    destruct (Req_dec (b - a) 0) as [Z0|NZ].
    + assert (Z1 : (b - a) / INR N = 0) by (rewrite Z0; unfold Rdiv; ring). replace ((e (bin s) + e (S (bin s))) / 2 - y s) with 0 by lra.
      rewrite Rabs_R0, Z0. unfold Rdiv. rewrite !Rmult_0_l, !Rmult_0_r. lra.
    + assert (K0 : 0 <= K).
      { assert (T' := HG b a ltac:(lra) ltac:(lra)). assert (P1 := Rabs_pos (g b - g a)). rewrite (Rabs_right (b - a)) in T' by lra. nra. }
      apply Rmult_le_compat_l; auto. replace ((b - a) / (2 * INR N)) with ((b - a) / INR N / 2) by (field; lra). apply Rabs_le. lra.
Qed.
Print Assumptions C75_interval_rule.

(** *** The zonotope *)
Lemma simplex_centroid : forall y n t (x p : nat -> R) delta, List.length t = S n -> in_simplex y n t x ->
  (forall j, (j < n)%nat -> p j = sumf (S n) (fun q => y.[nth q t 0%nat, j]) / INR (S n)) ->
  (forall u v, In u t -> In v t -> len n (fun j => y.[u, j] - y.[v, j]) <= delta) ->
  len n (fun j => p j - x j) <= INR n / INR (S n) * delta.
Proof.
  intros y n t x p delta LT (lam & L0 & L1 & LX) HP HD. rewrite LT in *. set (v := fun q j => y.[nth q t 0%nat, j]).
  assert (PS : 0 < INR (S n)) by (apply lt_0_INR; lia).
  assert (IT : forall q, (q < S n)%nat -> In (nth q t 0%nat) t) by (intros; apply nth_In; lia).
  assert (DV : forall q, (q < S n)%nat -> len n (fun j => p j - v q j) <= INR n / INR (S n) * delta).
  { intros q Hq. rewrite (len_ext n _ (fun j => / INR (S n) * sumf (S n) (fun r => v r j - v q j))).
    - rewrite len_scal. rewrite (Rabs_right (/ INR (S n))) by (apply Rle_ge; left; now apply Rinv_0_lt_compat).
      replace (INR n / INR (S n) * delta) with (/ INR (S n) * (INR n * delta)) by (field; lra).
      apply Rmult_le_compat_l; [left; now apply Rinv_0_lt_compat|]. eapply Rle_trans; [apply (len_sum n (S n) (fun r j => v r j - v q j))|].
      assert (D0 : len n (fun j => v q j - v q j) = 0) by (rewrite (len_ext n _ (fun _ => 0)) by (intros; ring); apply len_zero).
      apply Rle_trans with (sumf (S n) (fun r => if Nat.eqb r q then 0 else delta)).
      + apply sumf_le. intros r Hr. destruct (Nat.eqb_spec r q) as [->|]; [lra|]. apply (HD _ _ (IT r Hr) (IT q Hq)).
      + right. rewrite (sumf_ext (S n) _ (fun r => delta - (if Nat.eqb r q then delta else 0))) by (intros r _; destruct (Nat.eqb r q); ring).
        rewrite sumf_minus, sumf_const, (sumf_single (S n) q); [|exact Hq|intros i _ Hi; destruct (Nat.eqb_spec i q) as [C|C]; [contradiction (Hi C)|reflexivity]]. rewrite Nat.eqb_refl, S_INR. ring.
    - intros j Hj. rewrite HP by auto. rewrite sumf_minus, sumf_const. unfold v. field. lra. }
  rewrite (len_ext n _ (fun j => sumf (S n) (fun q => lam q * (p j - v q j)))).
  - eapply Rle_trans; [apply (len_sum n (S n) (fun q j => lam q * (p j - v q j)))|].
    apply Rle_trans with (sumf (S n) (fun q => lam q * (INR n / INR (S n) * delta))).
    + apply sumf_le. intros q Hq. rewrite (len_scal n (lam q) (fun j => p j - v q j)), (Rabs_right (lam q)) by (apply Rle_ge; auto). apply Rmult_le_compat_l; auto.
    + rewrite sumf_scal_r, L1. lra.
  - intros j Hj. rewrite LX by auto. rewrite (sumf_ext (S n) (fun q => lam q * (p j - v q j)) (fun q => lam q * p j - lam q * v q j)) by (intros; ring).
    rewrite sumf_minus, sumf_scal_r, L1. unfold v. ring.
Qed.

(** simplices of diameter at most delta: n/(n+1) delta times the slope, and at most b for
    every point the triangulation misses *)
Theorem C75_zonotope_rule : forall (G : gen) (U : Type) B ch delaunay d m n W1 vert NV N NX (w w' : world G U (nd R)) P Q k (g : (nat -> R) -> R) K b delta,
  delaunay_ok delaunay -> s_W1 (d_subs d) = Some W1 -> shape W1 = [m; n] -> d_vertY d = Some vert -> shape vert = [NV; n] ->
  zonotope_quadrature_rule B ch delaunay d N (Z.of_nat NX) w = (Ok (P, Q), w') -> shape Q = [k; 1%nat] ->
  (forall D y tri find, maximin_design B ch vert N w = (Ok D, w) -> vstack vert D = Ok y -> delaunay y = Ok (tri, find) ->
     forall t u v, In t tri -> In u t -> In v t -> len n (fun j => y.[u, j] - y.[v, j]) <= delta) ->
  let y s j := sumf m (fun c => nth (s * m + c) (fst (uniforms (-1) 1 (NX * m) (rng w))) 0 * W1.[c, j]) in
  0 <= K -> (forall u v, Rabs (g u - g v) <= K * len n (fun j => u j - v j)) ->
  (forall x, in_cube m x -> Rabs (g (fun j => sumf m (fun c => x c * W1.[c, j]))) <= b) ->
  let total := sumf k (fun i => Q.[i, 0%nat]) in
  0 <= total <= 1 /\
  Rabs (sumf k (fun i => Q.[i, 0%nat] * g (fun j => P.[i, j])) - sumf NX (fun s => g (y s)) / INR NX) <= INR n / INR (S n) * (K * delta) * total + b * (1 - total).
Proof.
  intros G U B ch delaunay d m n W1 vert NV N NX w w' P Q k g K b delta HD EW SW EV SV H SQ HDm y HK HG HB total.
  destruct (C45_zonotope_rule G U B ch delaunay d m n W1 vert NV N NX w w' P Q HD EW SW EV SV H) as (D & K' & yv & tri & loc & EM & _ & _ & Ey & (find & Ed) & _ & HX & R). cbv zeta in R.
  destruct R as (SP & SQ' & LOC & CEN & VQ & (c & NC & ET) & _). fold y in LOC. rewrite SQ in SQ'. injection SQ' as Ek. rewrite <- Ek in *.
  assert (PX : 0 < INR NX) by (apply lt_0_INR; lia). fold total in ET.
  assert (LL : forall s, (s < NX)%nat -> loc s = (-1)%Z \/ (0 <= loc s < Z.of_nat k)%Z) by (intros s Hs; destruct (LOC s Hs) as [[A _]|[A _]]; auto).
  split.
  - rewrite ET. assert (T := number_le _ _ _ NC). apply le_INR in T. split; [apply Rmult_le_pos; [apply pos_INR|left; now apply Rinv_0_lt_compat]|].
    apply Rmult_le_reg_r with (INR NX); auto. unfold Rdiv. rewrite Rmult_assoc, Rinv_l by lra. lra.
  - apply (cells_error NX k loc (fun i => Q.[i, 0%nat]) (fun i => g (fun j => P.[i, j])) (fun s => g (y s)) (INR n / INR (S n) * (K * delta)) b HX LL VQ).
    + intros s Hs _. apply (HB (fun c => nth (s * m + c) (fst (uniforms (-1) 1 (NX * m) (rng w))) 0)). intros c' Hc. apply uniforms_range; [lra|nia].
    + intros s Hs Hl. destruct (LOC s Hs) as [[A IS]|[A _]]; [|lia]. destruct (CEN (Z.to_nat (loc s)) ltac:(lia)) as (T1 & _ & _ & T2).
      eapply Rle_trans; [apply HG|]. replace (INR n / INR (S n) * (K * delta)) with (K * (INR n / INR (S n) * delta)) by ring. apply Rmult_le_compat_l; auto.
      apply (simplex_centroid yv n (nth (Z.to_nat (loc s)) tri []) (y s) (fun j => P.[Z.to_nat (loc s), j]) delta); auto.
      intros u v Hu Hv. apply (HDm D yv tri find EM Ey Ed (nth (Z.to_nat (loc s)) tri [])); auto. apply nth_In. lia.
Qed.
Print Assumptions C75_zonotope_rule.

(** *** integrate *)

(** for a function of the active variables alone, the points over a node have one value:
    the estimate is the rule applied to that function and its error bounds coincide with it *)
Theorem C75_ridge : forall (G : gen) (U : Type) B ch eig argsort del (fn : ufun (U := U) (nd R) (nd R)) a N NMC m n Wm W1 W2 (w w' : world G U (nd R)) mu lb ub (g : (nat -> R) -> R),
  frame (d_subs (av_domain a)) m n Wm W1 W2 -> invertible B a ->
  (forall u v, (forall j, (j < n)%nat -> u j = v j) -> g u = g v) ->
  (forall x u, shape x = [1%nat; m] -> exists v u', fn x u = (Ok v, u') /\ flat v 0 = g (fun k => sumf m (fun j => x.[0%nat, j] * W1.[j, k]))) ->
  integrate B ch eig argsort del (IsA fn) (IsA a) (IsA N) (IsA NMC) w = (Ok (mu, lb, ub), w') ->
  exists Yp Yw w1 q, av_quadrature_rule B ch eig argsort del a N w = (Ok (Yp, Yw), w1) /\ shape Yp = [q; n] /\ shape Yw = [q; 1%nat] /\
    mu = sumf q (fun i => Yw.[i, 0%nat] * g (fun k => Yp.[i, k])) /\ lb = mu /\ ub = mu.
Proof.
  intros G U B ch eig argsort del fn a N NMC m n Wm W1 W2 w w' mu lb ub g F HI HE HF H.
  destruct (C43_integrate G U B ch eig argsort del fn a N NMC m n Wm W1 W2 w w' mu lb ub F HI H)
    as (Yp & Yw & w1 & Xp & Xw & ind & w2 & q & K & f & us & ER & _ & _ & HK & HQ & SYp & SYw & SXp & SXw & OV & _ & VF & _ & EM & EB & EQ).
  exists Yp, Yw, w1, q. split; auto. split; auto. split; auto.
  assert (PK : 0 < INR K) by (apply lt_0_INR; lia).
  assert (FV : forall i l, (i < q)%nat -> (l < K)%nat -> f (i * K + l)%nat = g (fun k => Yp.[i, k])).
  { intros i l Hi Hl. destruct (VF (i * K + l)%nat ltac:(nia)) as (v & Ev & _ & ->).
    destruct (HF (rowarr Xp (i * K + l)) (us (i * K + l)%nat)) as (v' & u' & Ev' & Eg); [unfold rowarr; cbn [shape mk2]; now rewrite (ncols_shape2 _ _ _ _ SXp)|].
    rewrite Ev in Ev'. injection Ev' as <- _. rewrite Eg. apply HE. intros j Hj. exact (proj1 (OV i l Hi Hl) j Hj). }
  assert (LU : lb = ub). { apply EQ. intros i Hi _ l l' Hl Hl'. now rewrite !FV. }
  assert (EM' : mu = sumf q (fun i => Yw.[i, 0%nat] * g (fun k => Yp.[i, k]))).
  { rewrite EM, sumf_prod. apply sumf_ext. intros i Hi. rewrite (sumf_ext K _ (fun _ => Yw.[i, 0%nat] / INR K * g (fun k => Yp.[i, k]))).
    - rewrite sumf_const. field. lra.
    - intros l Hl. rewrite FV by auto. f_equal. exact (proj2 (OV i l Hi Hl)). }
  destruct EB as (E1 & E2 & E3). split; auto. lra.
Qed.
Print Assumptions C75_ridge.

(** on an interval: the integral of a Lipschitz ridge function differs from the mean of the
    function over the 10000 random points of the cube by at most half a bin times the slope *)
Theorem C75_integrate_interval : forall (G : gen) (U : Type) B ch eig argsort del (fn : ufun (U := U) (nd R) (nd R)) a N NX NMC m Wm W1 W2 vY vX (w w' : world G U (nd R)) mu lb ub (g : R -> R) K,
  frame (d_subs (av_domain a)) m 1 Wm W1 W2 -> invertible B a -> d_kind (av_domain a) = DBounded -> interval_endpoints W1 = Ok (vY, vX) -> d_vertY (av_domain a) = Some vY ->
  (1 <= N)%nat -> Z.of_nat NX = 10000%Z ->
  (forall x u, shape x = [1%nat; m] -> exists v u', fn x u = (Ok v, u') /\ flat v 0 = g (sumf m (fun j => x.[0%nat, j] * W1.[j, 0%nat]))) ->
  let a0 := vY.[0%nat, 0%nat] in let b0 := vY.[1%nat, 0%nat] in
  (forall u v, a0 <= u <= b0 -> a0 <= v <= b0 -> Rabs (g u - g v) <= K * Rabs (u - v)) ->
  integrate B ch eig argsort del (IsA fn) (IsA a) (IsA (Z.of_nat N)) (IsA NMC) w = (Ok (mu, lb, ub), w') ->
  let x s c := nth (s * m + c) (fst (uniforms (-1) 1 (NX * m) (rng w))) 0 in
  lb = mu /\ ub = mu /\ Rabs (mu - sumf NX (fun s => g (sumf m (fun c => x s c * W1.[c, 0%nat]))) / INR NX) <= K * ((b0 - a0) / (2 * INR N)).
Proof.
  intros G U B ch eig argsort del fn a N NX NMC m Wm W1 W2 vY vX w w' mu lb ub g K F HI DK EE EV HN EX HF a0 b0 HG H x.
  destruct (C75_ridge G U B ch eig argsort del fn a (Z.of_nat N) NMC m 1 Wm W1 W2 w w' mu lb ub (fun y => g (y 0%nat)) F HI) as (Yp & Yw & w1 & q & ER & SP & SQ & EM & EL & EU); auto.
  { intros u v E. now rewrite E by lia. }
  split; auto. split; auto.
  unfold av_quadrature_rule in ER. cbv zeta in ER. rewrite (fr_1 _ _ _ _ _ _ F) in ER. assert (SW := fr_s1 _ _ _ _ _ _ F).
  unfold mbind at 1, mlift at 1 in ER. cbn [need] in ER. unfold mbind at 1, mlift at 1, shape2 in ER. rewrite SW, DK in ER. change (Nat.eqb 1 1) with true in ER. cbv iota in ER. rewrite <- EX in ER.
  assert (HX : (1 <= NX)%nat) by lia.
  assert (R := C75_interval_rule G U (av_domain a) m W1 vY vX N NX w w1 Yp Yw g K (fr_1 _ _ _ _ _ _ F) SW EE EV HN HX ER HG).
  destruct (C44_interval_rule G U (av_domain a) m W1 vY vX N NX w (fr_1 _ _ _ _ _ _ F) SW EE EV HN HX) as (P' & Q' & E & SP' & _). rewrite ER in E. injection E as <- <- _.
  rewrite SP in SP'. injection SP' as ->. rewrite EM. exact R.
Qed.
Print Assumptions C75_integrate_interval.

(** on a zonotope whose triangulation has diameter at most delta *)
Theorem C75_integrate_zonotope : forall (G : gen) (U : Type) B ch eig argsort del (fn : ufun (U := U) (nd R) (nd R)) a N NX NMC m n Wm W1 W2 vert NV (w w' : world G U (nd R)) mu lb ub (g : (nat -> R) -> R) K b delta,
  frame (d_subs (av_domain a)) m n Wm W1 W2 -> invertible B a -> d_kind (av_domain a) = DBounded -> n <> 1%nat -> delaunay_ok del ->
  d_vertY (av_domain a) = Some vert -> shape vert = [NV; n] -> Z.of_nat NX = 10000%Z ->
  (forall D y tri find, maximin_design B ch vert N w = (Ok D, w) -> vstack vert D = Ok y -> del y = Ok (tri, find) ->
     forall t u v, In t tri -> In u t -> In v t -> len n (fun j => y.[u, j] - y.[v, j]) <= delta) ->
  0 <= K -> (forall u v, Rabs (g u - g v) <= K * len n (fun j => u j - v j)) ->
  (forall x, in_cube m x -> Rabs (g (fun j => sumf m (fun c => x c * W1.[c, j]))) <= b) ->
  (forall x u, shape x = [1%nat; m] -> exists v u', fn x u = (Ok v, u') /\ flat v 0 = g (fun k => sumf m (fun j => x.[0%nat, j] * W1.[j, k]))) ->
  integrate B ch eig argsort del (IsA fn) (IsA a) (IsA N) (IsA NMC) w = (Ok (mu, lb, ub), w') ->
  let x s c := nth (s * m + c) (fst (uniforms (-1) 1 (NX * m) (rng w))) 0 in
  exists total, 0 <= total <= 1 /\
    ((forall D y tri find, maximin_design B ch vert N w = (Ok D, w) -> vstack vert D = Ok y -> del y = Ok (tri, find) ->
        forall x, in_cube m x -> exists t, In t tri /\ in_simplex y n t (fun j => sumf m (fun c => x c * W1.[c, j]))) -> total = 1) /\
    lb = mu /\ ub = mu /\
    Rabs (mu - sumf NX (fun s => g (fun j => sumf m (fun c => x s c * W1.[c, j]))) / INR NX) <= INR n / INR (S n) * (K * delta) * total + b * (1 - total).
Proof.
  intros G U B ch eig argsort del fn a N NX NMC m n Wm W1 W2 vert NV w w' mu lb ub g K b delta F HI DK Nn HD EV SV EX HDm HK HG HB HF H x.
  destruct (C75_ridge G U B ch eig argsort del fn a N NMC m n Wm W1 W2 w w' mu lb ub g F HI) as (Yp & Yw & w1 & q & ER & SP & SQ & EM & EL & EU); auto.
  { intros u v E. assert (T := HG u v). rewrite (len_ext n _ (fun _ => 0)) in T by (intros i Hi; rewrite E by auto; ring). rewrite len_zero, Rmult_0_r in T.
    assert (P1 := Rabs_pos (g u - g v)). destruct (Req_dec (g u - g v) 0) as [Z|Z]; [lra|]. apply Rabs_no_R0 in Z. lra. }
  unfold av_quadrature_rule in ER. cbv zeta in ER. rewrite (fr_1 _ _ _ _ _ _ F) in ER. assert (SW := fr_s1 _ _ _ _ _ _ F).
  unfold mbind at 1, mlift at 1 in ER. cbn [need] in ER. unfold mbind at 1, mlift at 1, shape2 in ER. rewrite SW, DK in ER. rewrite (proj2 (Nat.eqb_neq n 1) Nn), <- EX in ER.
  destruct (C75_zonotope_rule G U B ch del (av_domain a) m n W1 vert NV N NX w w1 Yp Yw q g K b delta HD (fr_1 _ _ _ _ _ _ F) SW EV SV ER SQ HDm HK HG HB) as [T1 T2].
  exists (sumf q (fun i => Yw.[i, 0%nat])). split; [exact T1|]. split; [|split; [auto|split; [auto|]]].
  - intros CV. destruct (C45_covering G U B ch del (av_domain a) m n W1 vert NV N NX w w1 Yp Yw HD (fr_1 _ _ _ _ _ _ F) SW EV SV ER CV) as (k & SQ' & ->%eq_sym). rewrite SQ in SQ'. injection SQ' as ->. reflexivity.
  - rewrite EM. exact T2.
Qed.
Print Assumptions C75_integrate_zonotope.

(** |y| with y = (x_0 + 2 x_1 + 2 x_2)/3 over N bins of [-5/3, 5/3], whatever is drawn *)
Example C75_case : forall (G : gen) (w : world G unit (nd R)) N NX, (1 <= N)%nat -> Z.of_nat NX = 10000%Z ->
  exists vY vX mu w', interval_endpoints W31 = Ok (vY, vX) /\
  let x s c := nth (s * 3 + c) (fst (uniforms (-1) 1 (NX * 3) (rng w))) 0 in
  integrate backend_ref (fun _ => Err ValueError) eigh_ref argsort_ref (fun _ => Err ValueError)
    (IsA (pure (fun x => Rabs (/ 3 * x.[0%nat, 0%nat] + 2 / 3 * x.[0%nat, 1%nat] + 2 / 3 * x.[0%nat, 2%nat]))))
    (IsA (AVM MUnbounded (AVD DBounded sub3 3 1 (Some vY) (Some vX) None None))) (IsA (Z.of_nat N)) (IsA 1%Z) w = (Ok (mu, mu, mu), w') /\
  Rabs (mu - sumf NX (fun s => Rabs (/ 3 * x s 0%nat + 2 / 3 * x s 1%nat + 2 / 3 * x s 2%nat)) / INR NX) <= 5 / 3 / INR N.
Proof.
  intros G w N NX HN EX. destruct (C23_interval_endpoints W31 3 eq_refl) as (vY & vX & EE & SY & SX & H). cbv zeta in H. destruct H as (_ & EA & EB & H).
  exists vY, vX. set (a := AVM MUnbounded (AVD DBounded sub3 3 1 (Some vY) (Some vX) None None)).
  set (fx := fun x : nd R => Rabs (/ 3 * x.[0%nat, 0%nat] + 2 / 3 * x.[0%nat, 1%nat] + 2 / 3 * x.[0%nat, 2%nat])).
  assert (F : frame (d_subs (av_domain a)) 3 1 W3 W31 W32) by exact frame3.
  assert (HX : (1 <= NX)%nat) by lia. assert (PN : 0 < INR N) by (apply lt_0_INR; lia).
  assert (AB : vY.[0%nat, 0%nat] = - (5 / 3) /\ vY.[1%nat, 0%nat] = 5 / 3).
  { assert (EB' : vY.[1%nat, 0%nat] = 5 / 3).
    { rewrite EB. cbn [sumf]. unfold W31, W3, cols_slice. cbn [at_ mk2 nth Nat.add]. rewrite !Rabs_right by lra. lra. }
    split; lra. }
  destruct AB as [AB1 AB2]. clear EA EB H.
  destruct (C44_interval_rule G unit (av_domain a) 3 W31 vY vX N NX w eq_refl eq_refl EE eq_refl HN HX) as (Yp & Yw & EI & SP & SQ & _).
  set (w1 := set_rng w _) in EI.
  assert (ER : av_quadrature_rule backend_ref (fun _ => Err ValueError) eigh_ref argsort_ref (fun _ => Err ValueError) a (Z.of_nat N) w = (Ok (Yp, Yw), w1)).
  { unfold av_quadrature_rule. rewrite <- EX. exact EI. }
  destruct (C21_unbounded_inverse G unit (nd R) backend_ref (av_domain a) 3 1 W3 W31 W32 Yp N 1 w1 F SP) as (Xp & ind & EV & IO).
  set (w2 := set_rng w1 _) in EV. change (Z.of_nat 1) with 1%Z in EV.
  assert (EQ : exists Xw, quadrature_rule backend_ref (fun _ => Err ValueError) eigh_ref argsort_ref (fun _ => Err ValueError) (IsA a) (IsA (Z.of_nat N)) (IsA 1%Z) w = (Ok (Xp, Xw, ind), w2)).
  { unfold quadrature_rule. unfold mbind at 1. rewrite ER. unfold mbind at 1. change (AVM MUnbounded (av_domain a)) with a in EV. rewrite EV. eexists. reflexivity. }
  destruct EQ as (Xw & EQ). destruct (rule_returns _ _ _ _ _ _ _ a _ _ _ _ _ _ _ _ _ _ _ _ F (or_introl eq_refl) EQ) as (Yp' & Yw' & w1' & q & K & ER' & EK & RU).
  assert (K = 1%nat) by lia. subst K. rewrite ER in ER'. injection ER' as <- <- <-. assert (q = N) by (assert (A := ru_Yw _ _ _ _ _ _ _ _ _ _ _ RU); rewrite SQ in A; now injection A). subst q.
  destruct (sim_run_pure G unit fx Xp (N * 1) 3 w2 (ru_Xp _ _ _ _ _ _ _ _ _ _ _ RU)) as (FF & w3 & EFF & SF & VF).
  assert (R := integrate_run G unit backend_ref (fun _ => Err ValueError) eigh_ref argsort_ref (fun _ => Err ValueError) (pure fx) a (Z.of_nat N) w w2 w3 W31 Yp Yw Xp Xw ind 3 1 N 1 FF EQ RU ltac:(lia) ltac:(lia) EFF SF).
  cbv zeta in R. change (Z.of_nat 1) with 1%Z in R.
  assert (R' : exists mu lb ub, integrate backend_ref (fun _ => Err ValueError) eigh_ref argsort_ref (fun _ => Err ValueError) (IsA (pure fx)) (IsA a) (IsA (Z.of_nat N)) (IsA 1%Z) w = (Ok (mu, lb, ub), w3)) by (do 3 eexists; exact R).
  clear R. destruct R' as (mu & lb & ub & R).
  destruct (C75_integrate_interval G unit backend_ref (fun _ => Err ValueError) eigh_ref argsort_ref (fun _ => Err ValueError) (pure fx) a N NX 1 3 W3 W31 W32 vY vX w w3 mu lb ub Rabs 1 F (or_introl eq_refl) eq_refl EE eq_refl HN EX) as (E1 & E2 & E3).
  - intros x u Sx. do 2 eexists. split; [reflexivity|]. unfold flat. cbn [at_ shape unravel mk1 mk2]. unfold fx. cbn [sumf]. f_equal. unfold W31, W3, cols_slice; cbn [at_ mk2 nth Nat.add]. field.
  - intros u v _ _. rewrite Rmult_1_l. apply Rabs_triang_inv2.
  - exact R.
  - exists mu, w3. split; auto. cbv zeta. split; [rewrite E1, E2 in R; exact R|].
    rewrite AB1, AB2 in E3. replace (5 / 3 / INR N) with (1 * ((5 / 3 - - (5 / 3)) / (2 * INR N))) by (field; lra).
    rewrite (sumf_ext NX _ (fun s => Rabs (sumf 3 (fun c => nth (s * 3 + c) (fst (uniforms (-1) 1 (NX * 3) (rng w))) 0 * W31.[c, 0%nat])))); [exact E3|].
    intros s Hs. cbn [sumf]. f_equal. unfold W31, W3, cols_slice; cbn [at_ mk2]. cbn [nth Nat.add]. field.
Qed.

Lemma coord_len : forall n x j, (j < n)%nat -> Rabs (x j) <= len n x.
Proof.
  intros n x j Hj. unfold len, dot. rewrite <- sqrt_Rsqr_abs. apply sqrt_le_1_alt. unfold Rsqr.
  apply (sumf_term_le n (fun i => x i * x i) j); auto. intros. apply Rle_0_sqr.
Qed.
(** the square cut into four triangles around (1/2, 1/4), no side longer than 2: for the first
    coordinate the rule is within 4/3 of the sample (which is at -1/2) *)
Example C75_zonotope_case : exists P Q w',
  zonotope_quadrature_rule (const_backend (MR true (XArr (vec_of [/ 2; / 4])) (-1))) (fun _ => Ok sq_eqs) delaunay_fan
    (AVD DBounded (Subs None None (Some (mat_of [[1; 0]; [0; 1]])) None None None) 2 2 (Some sqv) None None None) 1 1 (toy_world tt : world toy_gen unit (nd R)) = (Ok (P, Q), w') /\
  Rabs (sumf 4 (fun i => Q.[i, 0%nat] * P.[i, 0%nat]) - - / 2) <= 4 / 3.
Proof.
  set (x := vec_of [/ 2; / 4]). set (w0 := toy_world tt : world toy_gen unit (nd R)). destruct C45_case as (_ & P & Q & w' & RUN & S1 & _). fold x w0 in RUN. exists P, Q, w'. split; [exact RUN|].
  destruct (maximin_run (G := toy_gen) (U := unit) (L := nd R) (const_backend (MR true (XArr x) (-1))) (fun _ => Ok sq_eqs) sqv 4 2 sq_eqs 1 (toy_world tt) eq_refl eq_refl) as [(i & e & _ & [_ F] & _)|(_ & o & Bt & E)].
  { exfalso. destruct F as [F|(v & F & Sv & _)]; [discriminate|]. injection F as <-. discriminate. }
  destruct Bt as [[-> Bt]|(k & v & _ & -> & [Gv _] & _)].
  { exfalso. specialize (Bt 0%nat _ ltac:(lia) ltac:(split; reflexivity)). cbn [mr_fun] in Bt. lra. }
  injection Gv as <-. cbn [mr_x] in E.
  assert (exists D, reshape [1; 2]%nat x = Ok D /\ shape D = [1; 2]%nat /\ D.[0%nat, 0%nat] = / 2 /\ D.[0%nat, 1%nat] = / 4) as (D & ED & SD & V0 & V1) by (eexists; split; [reflexivity|repeat split; reflexivity]).
  rewrite ED in E. change (Z.of_nat 1) with 1%Z in E. fold w0 in E.
  destruct (vstack_ok sqv D 4 1 2 sqv eq_refl SD) as (y & Ey & Sy & Y1 & Y2).
  set (d := AVD DBounded (Subs None None (Some (mat_of [[1; 0]; [0; 1]])) None None None) 2 2 (Some sqv) None None None) in *. set (BB := const_backend (MR true (XArr x) (-1))) in *.
  assert (SQ : shape Q = [4; 1]%nat).
  { destruct (C45_zonotope_rule toy_gen unit BB (fun _ => Ok sq_eqs) delaunay_fan d 2 2 (mat_of [[1; 0]; [0; 1]]) sqv 4 1 1 w0 w' P Q delaunay_fan_ok eq_refl eq_refl eq_refl eq_refl RUN)
      as (D' & K & y' & tri & loc & E' & _ & _ & Ey' & (find & Ed) & _ & _ & T). cbv zeta in T. destruct T as (_ & SQ & _).
    rewrite E in E'. injection E' as <-. rewrite Ey in Ey'. injection Ey' as <-. unfold delaunay_fan in Ed. rewrite Sy in Ed. injection Ed as <- _. exact SQ. }
  assert (YV : forall j, (j < 2)%nat -> y.[0%nat, j] = sqv.[0%nat, j] /\ y.[1%nat, j] = sqv.[1%nat, j] /\ y.[2%nat, j] = sqv.[2%nat, j] /\ y.[3%nat, j] = sqv.[3%nat, j] /\ y.[4%nat, j] = D.[0%nat, j]).
  { intros j Hj. repeat (split; [apply Y1; lia|]). apply (Y2 0%nat j); lia. }
  destruct (YV 0%nat ltac:(lia)) as (A0 & A1 & A2 & A3 & A4). destruct (YV 1%nat ltac:(lia)) as (B0 & B1 & B2 & B3 & B4). rewrite V0 in A4. rewrite V1 in B4.
  unfold sqv in A0, A1, A2, A3, B0, B1, B2, B3. cbn in A0, A1, A2, A3, B0, B1, B2, B3.
  assert (C := C75_zonotope_rule toy_gen unit BB (fun _ => Ok sq_eqs) delaunay_fan d 2 2 (mat_of [[1; 0]; [0; 1]]) sqv 4 1 1 w0 w' P Q 4 (fun u => u 0%nat) 1 1 2 delaunay_fan_ok eq_refl eq_refl eq_refl eq_refl RUN SQ).
  cbv zeta in C. rewrite S1 in C. destruct C as [_ C].
  - intros D' y' tri find E' Ey' Ed. rewrite E in E'. injection E' as <-. rewrite Ey in Ey'. injection Ey' as <-. unfold delaunay_fan in Ed. rewrite Sy in Ed. injection Ed as <- _.
    assert (GG : forall u v : nat, (y.[u, 0%nat] - y.[v, 0%nat]) * (y.[u, 0%nat] - y.[v, 0%nat]) + (y.[u, 1%nat] - y.[v, 1%nat]) * (y.[u, 1%nat] - y.[v, 1%nat]) <= 4 -> len 2 (fun j => y.[u, j] - y.[v, j]) <= 2).
    { intros u v T. apply len_le; [lra|]. unfold dot. cbn [sumf]. lra. }
    intros t u v Ht Hu Hv. apply GG.
    destruct Ht as [<-|[<-|[<-|[<-|[]]]]]; destruct Hu as [<-|[<-|[<-|[]]]]; destruct Hv as [<-|[<-|[<-|[]]]]; rewrite ?A0, ?A1, ?A2, ?A3, ?A4, ?B0, ?B1, ?B2, ?B3, ?B4; lra.
  - lra.
  - intros u v. rewrite Rmult_1_l. apply (coord_len 2 (fun j => u j - v j) 0). lia.
  - intros z Hz. cbn [sumf]. unfold mat_of. cbn. assert (T := Hz 0%nat ltac:(lia)). apply Rabs_le. lra.
  - replace (4 / 3) with (INR 2 / INR 3 * (1 * 2) * 1 + 1 * (1 - 1)) by (simpl INR; lra). eapply Rle_trans; [|exact C]. right. f_equal. f_equal. unfold w0. cbn. lra.
Qed.
