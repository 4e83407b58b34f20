(** Jacobi and Hermite polynomials from their three-term recurrences:
    orthogonality on an interval with weight (r-x)^a (x-l)^b, and on the line
    with the Gaussian weight. *)
From Coq Require Import Reals Lra Lia List Arith ZArith.
From Verif Require Import Prelude Deriv Integral GaussRules.
Import ListNotations.
Open Scope R_scope.

(** the monic polynomials of a three-term recurrence with coefficients al, be,
    and their derivatives *)
Fixpoint mono2 (al be : nat -> R) (k : nat) (x : R) : R * R :=
  match k with
  | O => (1, 0)
  | S k => let (p, q) := mono2 al be k x in ((x - al k) * p - be k * q, p)
  end.
Definition mono al be k x := fst (mono2 al be k x).
Lemma mono_0 : forall al be x, mono al be 0 x = 1.  Proof. reflexivity. Qed.
Lemma mono_1 : forall al be x, mono al be 1 x = x - al O.
Proof. intros. unfold mono. simpl. ring. Qed.
Lemma mono_SS : forall al be k x, mono al be (S (S k)) x = (x - al (S k)) * mono al be (S k) x - be (S k) * mono al be k x.
Proof. intros. unfold mono. simpl. destruct (mono2 al be k x) as [p q]. reflexivity. Qed.
Lemma mono_ext : forall al be al' be' n, (forall k, (k < n)%nat -> al k = al' k /\ be k = be' k) ->
  forall k x, (k <= n)%nat -> mono al be k x = mono al' be' k x.
Proof.
  intros al be al' be' n H k x Hk. unfold mono. f_equal. induction k; auto. simpl. rewrite IHk by lia.
  destruct (H k ltac:(lia)) as [-> ->]. reflexivity.
Qed.
Fixpoint dmono2 (al be : nat -> R) (k : nat) (x : R) : R * R :=
  match k with
  | O => (0, 0)
  | S k => let (d, e) := dmono2 al be k x in (mono al be k x + (x - al k) * d - be k * e, d)
  end.
Definition dmono al be k x := fst (dmono2 al be k x).
Lemma dmono_0 : forall al be x, dmono al be 0 x = 0.  Proof. reflexivity. Qed.
Lemma dmono_1 : forall al be x, dmono al be 1 x = 1.
Proof. intros. unfold dmono. simpl. rewrite mono_0. ring. Qed.
Lemma dmono_SS : forall al be k x, dmono al be (S (S k)) x =
  mono al be (S k) x + (x - al (S k)) * dmono al be (S k) x - be (S k) * dmono al be k x.
Proof. intros. unfold dmono. simpl. destruct (dmono2 al be k x) as [p q]. reflexivity. Qed.
Lemma pair_ind : forall P : nat -> Prop, P O -> P 1%nat -> (forall k, P k -> P (S k) -> P (S (S k))) -> forall k, P k.
Proof. intros P H0 H1 H k. enough (P k /\ P (S k)) by tauto. induction k; [auto|]. destruct IHk. split; auto. Qed.
Lemma mono_deriv : forall al be k x, D (mono al be k) x (dmono al be k x).
Proof.
  intros al be. apply (pair_ind (fun k => forall x, D (mono al be k) x (dmono al be k x))).
  - intros x. apply (D_ext (fun _ => 1)); [apply D_const|reflexivity].
  - intros x. rewrite dmono_1. apply (D_ext (fun t => t - al O)); [|intros; apply mono_1].
    eapply D_eq; [apply D_minus; [apply D_id|apply D_const]|cbv beta; ring].
  - intros k IH0 IH1 x. rewrite dmono_SS.
    apply (D_ext (fun t => (t - al (S k)) * mono al be (S k) t - be (S k) * mono al be k t)); [|intros; apply mono_SS].
    eapply D_eq; [apply D_minus; [apply D_mult; [apply D_minus; [apply D_id|apply D_const]|apply IH1]|apply D_mult; [apply D_const|apply IH0]]|cbv beta; ring].
Qed.
(** the recurrence, solved for x * p_k *)
Definition prev (p : nat -> R -> R) (k : nat) (x : R) : R := match k with O => 0 | S k => p k x end.
Lemma mono_x : forall al be k x, x * mono al be k x =
  mono al be (S k) x + al k * mono al be k x + be k * prev (mono al be) k x.
Proof.
  intros al be [|k] x; unfold prev.
  - rewrite mono_1, mono_0. ring.
  - rewrite mono_SS. ring.
Qed.
Lemma mono_scale : forall al be s o, s <> 0 -> forall k x,
  mono (fun k => s * al k + o) (fun k => match k with O => 1 | _ => s * s * be k end) k x = s ^ k * mono al be k ((x - o) / s).
Proof.
  intros al be s o Hs. set (al' := fun k => s * al k + o). set (be' := fun k => match k with O => 1 | _ => s * s * be k end).
  apply (pair_ind (fun k => forall x, mono al' be' k x = s ^ k * mono al be k ((x - o) / s))).
  - intros x. rewrite !mono_0. simpl; ring.
  - intros x. rewrite !mono_1. unfold al'. simpl. field; auto.
  - intros k IH0 IH1 x. rewrite !mono_SS, IH0, IH1. unfold al', be'. simpl. field; auto.
Qed.

(** ** Jacobi *)
Section Jacobi.
  Variables a b : R.
  Hypothesis Ha : -1 < a.  Hypothesis Hb : -1 < b.
  Definition ju (k : nat) : R := 2 * INR k + a + b.
  Definition jal (k : nat) : R :=
    match k with O => (b - a) / (a + b + 2) | _ => (b * b - a * a) / (ju k * (ju k + 2)) end.
  Definition jbe (k : nat) : R :=
    match k with
    | O => 1
    | S O => 4 * (1 + a) * (1 + b) / ((a + b + 2) * (a + b + 2) * (a + b + 3))
    | _ => 4 * INR k * (INR k + a) * (INR k + b) * (INR k + a + b) / (ju k * ju k * (ju k + 1) * (ju k - 1))
    end.
  Let jc (k : nat) : R := (a - b) / ju k.
  Let P := mono jal jbe.
  Let Q := dmono jal jbe.
  Lemma ju_S : forall k, ju (S k) = ju k + 2.  Proof. intros. unfold ju. rewrite S_INR. ring. Qed.
  Lemma ju_pos : forall k, 0 < ju (S k).
  Proof. intros. unfold ju. rewrite S_INR. assert (A := pos_INR k). lra. Qed.
  Lemma ju_big : forall k, 2 < ju (S (S k)).
  Proof. intros. unfold ju. rewrite !S_INR. assert (A := pos_INR k). lra. Qed.
  Lemma jbe_low : forall k, jbe (S k) * (ju (S k) - 1) =
    4 * INR (S k) * (INR (S k) + a) * (INR (S k) + b) * (INR (S k) + a + b) / (ju (S k) * ju (S k) * (ju (S k) + 1)).
  Proof.
    intros [|k].
    - assert (U := ju_pos 0). unfold jbe. unfold ju in *. simpl in *. field. lra.
    - assert (U := ju_big k). unfold jbe. field. repeat split; lra.
  Qed.
  Lemma jal_gen : forall k, (ju k + 2) * jal k = 2 * (INR k * jc k) + b - a.
  Proof.
    intros [|k].
    - unfold jal, ju. simpl. field. lra.
    - assert (U := ju_pos k). assert (E : INR (S k) = (ju (S k) - a - b) / 2) by (unfold ju; field).
      unfold jal, jc. rewrite E. field. lra.
  Qed.

  (** (1 - x^2) p_k' in terms of p_k and p_(k-1), and in terms of p_k and p_(k+1) *)
  Definition str1 k x := (1 - x * x) * Q (S k) x = INR (S k) * (jc (S k) - x) * P (S k) x + (ju (S k) + 1) * jbe (S k) * P k x.
  Definition str2 k x := (1 - x * x) * Q k x = (INR k * (jc k - x) + (ju k + 1) * (x - jal k)) * P k x - (ju k + 1) * P (S k) x.
  Lemma str_12 : forall k x, str1 k x -> str2 (S k) x.
  Proof. intros k x H. unfold str1, str2 in *. rewrite H. unfold P. rewrite (mono_SS _ _ k). ring. Qed.
  Lemma str2_0 : forall x, str2 0 x.
  Proof. intros x. unfold str2, P, Q. rewrite dmono_0, mono_0, mono_1. simpl. ring. Qed.
  Lemma str1_0 : forall x, str1 0 x.
  Proof.
    intros x. unfold str1, P, Q. rewrite dmono_1, mono_0, mono_1. unfold jc, jal, jbe, ju. simpl. field. lra.
  Qed.
  Lemma str_step : forall k x, str1 k x -> str2 k x -> str1 (S k) x.
  Proof.
    intros k x H1 H2. unfold str1, str2 in *. unfold P, Q in *. rewrite (dmono_SS jal jbe k), (mono_SS jal jbe k).
    set (n := S k) in *. set (p1 := mono jal jbe n x) in *. set (p0 := mono jal jbe k x) in *.
    set (d1 := dmono jal jbe n x) in *. set (d0 := dmono jal jbe k x) in *.
    assert (Un := ju_pos k). fold n in Un. assert (UN := ju_S n). assert (Uk : ju n = ju k + 2) by (unfold n; apply ju_S).
    assert (EN : INR (S n) = INR n + 1) by apply S_INR. assert (Ek : INR n = INR k + 1) by (unfold n; apply S_INR).
    assert (In : INR n = (ju n - a - b) / 2) by (unfold ju; field).
    assert (C1 : INR n * jc n + INR n * jal n = INR (S n) * (jc (S n) + jal n)).
    { unfold jc. rewrite EN, UN. unfold jal; cbv iota beta delta [n]. fold n. rewrite In. field. lra. }
    assert (C2 : 1 - jal n * (INR n * jc n) + jbe n * (ju n - 1) = - (INR (S n) * jc (S n) * jal n) + (ju (S n) + 1) * jbe (S n)).
    { assert (L := jbe_low k). fold n in L. rewrite L. unfold jbe, jal, jc; cbv iota beta delta [n]. fold n. rewrite EN, UN.
      assert (U2 := ju_big k). fold n in U2. rewrite UN in U2. rewrite In. field. lra. }
    assert (C3 : - jal n * (ju n + 1) - INR k * jc k + (ju n - 1) * jal k = - (INR (S n) * jc (S n))).
    { assert (G := jal_gen k).
      assert (Ik : INR k * jc k = ((ju k + 2) * jal k + a - b) / 2) by lra. rewrite Ik. unfold jc. rewrite EN, UN.
      destruct k as [|k].
      - unfold jal, n, ju. simpl. field. lra.
      - assert (U1 := ju_pos k). unfold jal; cbv iota beta delta [n]. fold n. rewrite In. rewrite Uk. field. lra. }
    transitivity ((1 - x * x) * p1 + (x - jal n) * ((1 - x * x) * d1) - jbe n * ((1 - x * x) * d0)); [ring|].
    rewrite H1, H2.
    transitivity (((1 - x * x) + (x - jal n) * (INR n * jc n - INR n * x) + jbe n * (ju n - 1)) * p1
                  + jbe n * ((x - jal n) * (ju n + 1) - INR k * jc k + INR k * x - (ju n - 1) * (x - jal k)) * p0).
    { rewrite Uk. ring. }
    transitivity ((INR (S n) * (jc (S n) - x) * (x - jal n) + (ju (S n) + 1) * jbe (S n)) * p1 - INR (S n) * jbe n * (jc (S n) - x) * p0); [|ring].
    assert (K1 : 1 - x * x + (x - jal n) * (INR n * jc n - INR n * x) + jbe n * (ju n - 1) = INR (S n) * (jc (S n) - x) * (x - jal n) + (ju (S n) + 1) * jbe (S n)).
    { transitivity ((1 - jal n * (INR n * jc n) + jbe n * (ju n - 1)) + x * (INR n * jc n + INR n * jal n) - (INR n + 1) * (x * x)); [ring|].
      rewrite C2, C1, <- EN. ring. }
    rewrite K1.
    assert (K2 : (x - jal n) * (ju n + 1) - INR k * jc k + INR k * x - (ju n - 1) * (x - jal k) = - INR (S n) * (jc (S n) - x)).
    { transitivity ((- jal n * (ju n + 1) - INR k * jc k + (ju n - 1) * jal k) + x * (INR k + 2)); [ring|].
      rewrite C3. rewrite EN, Ek. ring. }
    rewrite K2. ring.
  Qed.
  Lemma str_all : forall k x, str1 k x /\ str2 k x.
  Proof.
    induction k; intros x; [split; [apply str1_0|apply str2_0]|]. destruct (IHk x) as [H1 H2].
    split; [now apply str_step|now apply str_12].
  Qed.

  (** functions whose product with the weight is the derivative of (1-x^2) w q *)
  Definition nul (f : R -> R) : Prop := exists q q', (forall x, D q x (q' x)) /\
    forall x, f x = (1 - x * x) * q' x + (b - a - (a + b + 2) * x) * q x.
  Lemma nul_ext : forall f g, nul f -> (forall x, g x = f x) -> nul g.
  Proof. intros f g (q & q' & H1 & H2) E. exists q, q'. split; auto. intros. rewrite E. auto. Qed.
  Lemma nul_0 : nul (fun _ => 0).
  Proof. exists (fun _ => 0), (fun _ => 0). split; [intros; apply D_const|intros; ring]. Qed.
  Lemma nul_plus : forall f g, nul f -> nul g -> nul (fun x => f x + g x).
  Proof.
    intros f g (q & q' & H1 & H2) (r & r' & H3 & H4). exists (fun x => q x + r x), (fun x => q' x + r' x).
    split; [intros; apply D_plus; auto|]. intros x. rewrite H2, H4. ring.
  Qed.
  Lemma nul_scal : forall c f, nul f -> nul (fun x => c * f x).
  Proof.
    intros c f (q & q' & H1 & H2). exists (fun x => c * q x), (fun x => c * q' x). split.
    - intros. eapply D_eq; [apply D_mult; [apply D_const|apply H1]|cbv beta; ring].
    - intros x. rewrite H2. ring.
  Qed.
  Fixpoint jh (k : nat) : R := match k with O => 1 | S k => jbe (S k) * jh k end.
  Definition good k := (forall i, (i < k)%nat -> nul (fun x => P k x * P i x)) /\ nul (fun x => P k x * P k x - jh k).
  Lemma good_x2 : forall n, good n -> nul (fun x => x * (P n x * P n x) - jal n * jh n).
  Proof.
    intros n [G1 G2].
    assert (U : 0 < ju n + 2) by (rewrite <- ju_S; apply ju_pos).
    assert (A : nul (fun x => (1 - x * x) * (Q n x * P n x + P n x * Q n x) + (b - a - (a + b + 2) * x) * (P n x * P n x))).
    { exists (fun x => P n x * P n x), (fun x => Q n x * P n x + P n x * Q n x). split; [|reflexivity].
      intros x. apply D_mult; apply mono_deriv. }
    assert (B : nul (fun x => match n with O => 0 | S k => 2 * (ju n + 1) * jbe n end * (P n x * prev P n x))).
    { destruct n as [|k]; [eapply nul_ext; [apply nul_0|intros; cbv beta; ring]|]. apply nul_scal. apply (G1 k). lia. }
    assert (C := nul_plus _ _ (nul_scal (- / (ju n + 2)) _ A)
                  (nul_plus _ _ (nul_scal (jal n) _ G2) (nul_scal (/ (ju n + 2)) _ B))).
    eapply nul_ext; [exact C|]. intros x. cbv beta. assert (G := jal_gen n).
    assert (S1 : (1 - x * x) * Q n x = INR n * (jc n - x) * P n x + match n with O => 0 | S k => (ju n + 1) * jbe n end * prev P n x).
    { destruct n as [|k]; [unfold Q; rewrite dmono_0; simpl; ring|]. exact (proj1 (str_all k x)). }
    replace ((1 - x * x) * (Q n x * P n x + P n x * Q n x)) with (2 * P n x * ((1 - x * x) * Q n x)) by ring.
    rewrite S1. assert (E : (b - a) = (ju n + 2) * jal n - 2 * (INR n * jc n)) by lra.
    assert (E2 : a + b + 2 = ju n + 2 - 2 * INR n) by (unfold ju; ring).
    replace (b - a - (a + b + 2) * x) with ((b - a) - (a + b + 2) * x) by ring. rewrite E, E2.
    destruct n as [|k]; field; lra.
  Qed.
  Lemma good_step : forall n, (forall k, (k <= n)%nat -> good k) -> good (S n).
  Proof.
    intros n H. assert (Gn := H n (le_n n)). assert (X2 := good_x2 n Gn). destruct Gn as [G1 G2].
    assert (X : forall x, P (S n) x = x * P n x - jal n * P n x - jbe n * prev P n x).
    { intros x. unfold P. rewrite mono_x. ring. }
    assert (Xi : forall i x, x * P i x = P (S i) x + jal i * P i x + jbe i * prev P i x) by (intros; apply mono_x).
    assert (Pn : forall k, (k <= n)%nat -> nul (fun x => P k x * prev P k x)).
    { intros [|k] Hk; [eapply nul_ext; [apply nul_0|intros; simpl; ring]|]. apply (proj1 (H (S k) Hk)). lia. }
    assert (B : nul (fun x => P (S n) x * P n x)).
    { eapply nul_ext; [exact (nul_plus _ _ X2 (nul_plus _ _ (nul_scal (- jal n) _ G2) (nul_scal (- jbe n) _ (Pn n (le_n n)))))|].
      intros x. cbv beta. rewrite X. ring. }
    assert (O1 : forall i, (i < S n)%nat -> nul (fun x => P (S n) x * P i x)).
    { intros i Hi. destruct (Nat.eq_dec i n) as [->|Ni]; auto.
      destruct (Nat.eq_dec (S i) n) as [Ei|Ni2].
      - subst n. set (n := S i) in *.
        assert (Gi := proj2 (H i ltac:(unfold n; lia))).
        assert (N1 := G1 i ltac:(unfold n; lia)).
        assert (N2 : nul (fun x => P n x * prev P i x)).
        { destruct i as [|i']; [eapply nul_ext; [apply nul_0|intros; simpl; ring]|]. apply (G1 i'). unfold n; lia. }
        eapply nul_ext; [exact (nul_plus _ _ G2 (nul_plus _ _ (nul_scal (jal i - jal n) _ N1)
                          (nul_plus _ _ (nul_scal (jbe i) _ N2) (nul_scal (- jbe n) _ Gi))))|].
        intros x. cbv beta. rewrite X. assert (E := Xi i x). fold n in E.
        transitivity (P n x * (x * P i x) - jal n * (P n x * P i x) - jbe n * (prev P n x * P i x)); [ring|].
        rewrite E. replace (prev P n x) with (P i x) by reflexivity. replace (jh n) with (jbe n * jh i) by reflexivity. ring.
      - assert (N0 := G1 (S i) ltac:(lia)). assert (N1 := G1 i ltac:(lia)).
        assert (N2 : nul (fun x => P n x * prev P i x)).
        { destruct i as [|i']; [eapply nul_ext; [apply nul_0|intros; simpl; ring]|]. apply (G1 i'). lia. }
        assert (N3 : nul (fun x => prev P n x * P i x)).
        { destruct n as [|k]; [lia|]. simpl. apply (proj1 (H k ltac:(lia))). lia. }
        eapply nul_ext; [exact (nul_plus _ _ N0 (nul_plus _ _ (nul_scal (jal i - jal n) _ N1)
                          (nul_plus _ _ (nul_scal (jbe i) _ N2) (nul_scal (- jbe n) _ N3))))|].
        intros x. cbv beta. rewrite X.
        transitivity (P n x * (x * P i x) - jal n * (P n x * P i x) - jbe n * (prev P n x * P i x)); [ring|].
        rewrite Xi. ring. }
    split; auto.
    assert (A : nul (fun x => (1 - x * x) * (Q (S n) x * P n x + P (S n) x * Q n x) + (b - a - (a + b + 2) * x) * (P (S n) x * P n x))).
    { exists (fun x => P (S n) x * P n x), (fun x => Q (S n) x * P n x + P (S n) x * Q n x). split; [|reflexivity].
      intros x. apply D_mult; apply mono_deriv. }
    assert (N2 : nul (fun x => P (S n) x * prev P n x)).
    { destruct n as [|k]; [eapply nul_ext; [apply nul_0|intros; simpl; ring]|]. apply (O1 k). lia. }
    assert (U := ju_pos n).
    set (m := S n) in *. set (w := / (ju m + 1)).
    set (cst := INR m * jc m + INR n * jc n - (ju n + 1) * jal n + (b - a) - 2 * jal n).
    assert (C := nul_plus _ _ (nul_scal (- w) _ A) (nul_plus _ _ (nul_scal (w * cst) _ B)
              (nul_plus _ _ (nul_scal (- w * 2 * jbe n) _ N2) (nul_scal (jbe m) _ G2)))).
    eapply nul_ext; [exact C|]. intros x. cbv beta.
    destruct (str_all n x) as [S1 S2]. unfold str1 in S1. unfold str2 in S2. fold m in S1, S2.
    assert (E : INR m = INR n + 1) by (unfold m; apply S_INR). assert (Eu : ju m = ju n + 2) by (unfold m; apply ju_S).
    transitivity (- w * (P n x * ((1 - x * x) * Q m x) + P m x * ((1 - x * x) * Q n x) + (b - a - (a + b + 2) * x) * (P m x * P n x)) +
                  (w * cst * (P m x * P n x) + (- w * 2 * jbe n * (P m x * prev P n x) + jbe m * (P n x * P n x - jh n)))); [|ring].
    rewrite S1, S2.
    transitivity (- w * (- 2 * (P m x * (x * P n x)) + (cst + 2 * jal n) * (P m x * P n x) + (ju m + 1) * jbe m * (P n x * P n x) - (ju n + 1) * (P m x * P m x)) +
                  (w * cst * (P m x * P n x) + (- w * 2 * jbe n * (P m x * prev P n x) + jbe m * (P n x * P n x - jh n)))).
    2:{ f_equal. f_equal. unfold cst. rewrite E. replace (ju n) with (2 * INR n + a + b) by reflexivity. ring. }
    rewrite (Xi n x). fold m. replace (jh m) with (jbe m * jh n) by reflexivity. unfold w. rewrite Eu. field. lra.
  Qed.
  Lemma good_all : forall n, good n.
  Proof.
    intros n. induction n as [n IH] using (well_founded_induction lt_wf). destruct n as [|n].
    - split; [intros; lia|]. eapply nul_ext; [apply nul_0|]. intros x. unfold P. rewrite mono_0. simpl. ring.
    - apply good_step. intros k Hk. apply IH. lia.
  Qed.
  Lemma jh_pos : forall k, 0 < jh k.
  Proof.
    assert (B : forall k, 0 < jbe (S k)).
    { intros [|k].
      - unfold jbe. apply Rdiv_lt_0_compat; repeat apply Rmult_lt_0_compat; lra.
      - assert (U := ju_big k). assert (Ik := pos_INR k). unfold jbe. rewrite !S_INR.
        apply Rdiv_lt_0_compat; repeat apply Rmult_lt_0_compat; lra. }
    induction k; cbn [jh]; [lra|]. apply Rmult_lt_0_compat; [apply B|auto].
  Qed.
End Jacobi.

(** int_l^r f(x) (r-x)^a (x-l)^b dx = L, possibly improper: an antiderivative
    on the open interval, with limits at the two ends *)
Definition weighted_integral (l r a b : R) (f : R -> R) (L : R) : Prop :=
  exists F A B, (forall x, l < x < r -> D F x (f x * (Rpower (r - x) a * Rpower (x - l) b))) /\
    limit1_in F (fun x => l < x < r) A l /\ limit1_in F (fun x => l < x < r) B r /\ L = B - A.
Lemma weighted_integral_ext : forall l r a b f g L, (forall x, g x = f x) -> weighted_integral l r a b f L -> weighted_integral l r a b g L.
Proof. intros l r a b f g L E (F & A & B & H1 & H2). exists F, A, B. split; auto. intros x Hx. rewrite E. auto. Qed.
Lemma weighted_integral_scal : forall l r a b f c L, weighted_integral l r a b f L -> weighted_integral l r a b (fun x => c * f x) (c * L).
Proof.
  intros l r a b f c L (F & A & B & H1 & H2 & H3 & H4). exists (fun x => c * F x), (c * A), (c * B). split; [|split; [|split]].
  - intros x Hx. eapply D_eq; [apply D_mult; [apply D_const|apply H1; auto]|cbv beta; ring].
  - apply (limit_mul (fun _ => c) F); auto.
    intros eps He. exists 1. split; [lra|]. intros. simpl. rewrite R_dist_eq. auto.
  - apply (limit_mul (fun _ => c) F); auto. intros eps He. exists 1. split; [lra|]. intros. simpl. rewrite R_dist_eq. auto.
  - rewrite H4. ring.
Qed.
Lemma two_limits : forall (F : R -> R) (l r A A' x0 : R), l < r -> (x0 = l \/ x0 = r) ->
  limit1_in F (fun x => l < x < r) A x0 -> limit1_in F (fun x => l < x < r) A' x0 -> A = A'.
Proof.
  intros F l r A A' x0 Hlr Hx H1 H2. apply (single_limit F (fun x => l < x < r) A A' x0); auto.
  intros alp Ha. exists (if Req_EM_T x0 l then l + Rmin (alp / 2) ((r - l) / 2) else r - Rmin (alp / 2) ((r - l) / 2)).
  assert (M1 := Rmin_l (alp / 2) ((r - l) / 2)). assert (M2 := Rmin_r (alp / 2) ((r - l) / 2)).
  assert (M3 : 0 < Rmin (alp / 2) ((r - l) / 2)) by (apply Rmin_glb_lt; lra).
  destruct (Req_EM_T x0 l) as [->|N]; unfold R_dist.
  - split; [lra|]. rewrite Rabs_right; lra.
  - destruct Hx as [Hx| ->]; [tauto|]. split; [lra|]. rewrite Rabs_left; lra.
Qed.
Lemma weighted_integral_unique : forall l r a b f L L', l < r ->
  weighted_integral l r a b f L -> weighted_integral l r a b f L' -> L = L'.
Proof.
  intros l r a b f L L' Hlr (F & A & B & H1 & H2 & H3 & ->) (G & A' & B' & K1 & K2 & K3 & ->).
  set (m := (l + r) / 2). assert (Hm : l < m < r) by (unfold m; lra).
  assert (C : forall x, l < x < r -> F x = G x + (F m - G m)).
  { assert (W : forall u v, l < u < r -> l < v < r -> u < v -> F v - G v = F u - G u).
    { intros u v Hu Hv Huv.
      destruct (MVT_cor2 (fun t => F t - G t) (fun t => f t * (Rpower (r - t) a * Rpower (t - l) b) - f t * (Rpower (r - t) a * Rpower (t - l) b)) u v Huv)
        as (c & Hc & _).
      - intros c Hc. apply D_minus; [apply H1|apply K1]; lra.
      - lra. }
    intros x Hx. destruct (Rtotal_order x m) as [H|[-> |H]]; [|lra|].
    - specialize (W x m Hx Hm H). lra.
    - specialize (W m x Hm Hx H). lra. }
  assert (T : forall x0 V V', limit1_in G (fun x => l < x < r) V x0 -> (x0 = l \/ x0 = r) ->
              limit1_in F (fun x => l < x < r) V' x0 -> V' = V + (F m - G m)).
  { intros x0 V V' HG Hx0 HF. apply (two_limits F l r V' _ x0 Hlr Hx0 HF).
    intros eps He. destruct (HG eps He) as (al & Hal & Hb). exists al. split; auto. intros x [Hx Hd]. simpl. rewrite (C x Hx).
    specialize (Hb x (conj Hx Hd)). simpl in Hb. unfold R_dist in *.
    replace (G x + (F m - G m) - (V + (F m - G m))) with (G x - V) by ring. auto. }
  assert (T1 := T l A' A K2 (or_introl eq_refl) H2). assert (T2 := T r B' B K3 (or_intror eq_refl) H3). lra.
Qed.

Lemma rpower_small : forall c eps, 0 < c -> 0 < eps -> exists d, 0 < d /\ forall y, 0 < y < d -> Rpower y c < eps.
Proof.
  intros c eps Hc He. exists (Rpower eps (/ c)). split; [apply exp_pos|]. intros y [Hy Hd].
  replace eps with (Rpower (Rpower eps (/ c)) c).
  - apply Rlt_Rpower_l; auto.
  - rewrite Rpower_mult, Rinv_l, Rpower_1; lra.
Qed.
Lemma rpower_S : forall y c, 0 < y -> Rpower y (c + 1) = y * Rpower y c.
Proof. intros. rewrite Rpower_plus, Rpower_1 by auto. ring. Qed.
Lemma D_rpower : forall f x d c, D f x d -> 0 < f x -> D (fun t => Rpower (f t) (c + 1)) x ((c + 1) * Rpower (f x) c * d).
Proof.
  intros f x d c Hf Hp. unfold Rpower at 1. eapply D_eq.
  - apply (D_exp (fun t => (c + 1) * ln (f t))). apply D_mult; [apply D_const|]. apply D_ln; eauto.
  - cbv beta. change (exp ((c + 1) * ln (f x))) with (Rpower (f x) (c + 1)). rewrite rpower_S by auto. field. lra.
Qed.
Lemma lim_end : forall (l r x0 : R) (y g : R -> R) c, 0 < c ->
  (forall x, l < x < r -> 0 < y x <= Rabs (x - x0)) ->
  (exists M d, 0 < d /\ forall x, l < x < r -> Rabs (x - x0) < d -> Rabs (g x) <= M) ->
  limit1_in (fun x => Rpower (y x) c * g x) (fun x => l < x < r) 0 x0.
Proof.
  intros l r x0 y g c Hc Hy (M & d & Hd & HM) eps He.
  destruct (rpower_small c (eps / (Rabs M + 1)) Hc) as (d2 & Hd2 & Hs).
  { apply Rdiv_lt_0_compat; auto. assert (A := Rabs_pos M). lra. }
  exists (Rmin d d2). split; [now apply Rmin_glb_lt|]. intros x [Hx Hdx]. simpl in *. unfold R_dist in *.
  assert (M1 := Rmin_l d d2). assert (M2 := Rmin_r d d2). specialize (HM x Hx ltac:(lra)). specialize (Hy x Hx).
  specialize (Hs (y x) ltac:(lra)). rewrite Rminus_0_r, Rabs_mult, (Rabs_right (Rpower _ _)) by (left; apply exp_pos).
  assert (A := Rabs_pos M). assert (B := Rle_abs M). assert (Pp : 0 < Rpower (y x) c) by apply exp_pos.
  apply Rle_lt_trans with (Rpower (y x) c * (Rabs M + 1)); [apply Rmult_le_compat_l; lra|].
  apply (Rmult_lt_compat_r (Rabs M + 1)) in Hs; [|lra]. replace (eps / (Rabs M + 1) * (Rabs M + 1)) with eps in Hs by (field; lra). auto.
Qed.
Lemma nul_integral : forall l r a b f, l < r -> -1 < a -> -1 < b -> nul a b f ->
  weighted_integral l r a b (fun x => f ((x - (l + (r - l) / 2)) / ((r - l) / 2))) 0.
Proof.
  intros l r a b f Hlr Ha Hb (q & q' & Hq & Hf). set (s := (r - l) / 2). set (o := l + s).
  assert (Hs : 0 < s) by (unfold s; lra).
  assert (Ht : forall x, D (fun t => (t - o) / s) x (/ s)).
  { intros x. apply (D_ext (fun t => / s * (t - o))); [|intros; unfold Rdiv; ring].
    eapply D_eq; [apply D_mult; [apply D_const|apply D_minus; [apply D_id|apply D_const]]|cbv beta; ring]. }
  assert (Hqt : forall x, D (fun t => q ((t - o) / s)) x (q' ((x - o) / s) * / s)).
  { intros x. apply (D_comp (fun t => (t - o) / s) q); [apply Ht|apply Hq]. }
  assert (Bd : forall x0, exists M d, 0 < d /\ forall x, Rabs (x - x0) < d -> Rabs (q ((x - o) / s)) <= M).
  { intros x0. assert (Cc : continuity_pt (fun t => q ((t - o) / s)) x0).
    { apply derivable_continuous_pt. exists (q' ((x0 - o) / s) * / s). apply Hqt. }
    destruct (Cc 1 ltac:(lra)) as (d & Hd & Hc). exists (Rabs (q ((x0 - o) / s)) + 1), d. split; auto. intros x Hx.
    destruct (Req_dec x x0) as [->|Nx]; [lra|]. specialize (Hc x). simpl in Hc. unfold R_dist in Hc.
    assert (K : Rabs (q ((x - o) / s) - q ((x0 - o) / s)) < 1) by (apply Hc; split; [split; [exact I|auto]|auto]).
    assert (T := Rabs_triang (q ((x0 - o) / s)) (q ((x - o) / s) - q ((x0 - o) / s))).
    replace (q ((x0 - o) / s) + (q ((x - o) / s) - q ((x0 - o) / s))) with (q ((x - o) / s)) in T by ring. lra. }
  assert (Mn : forall y c, 0 < y < r - l -> 0 < c -> Rpower y c <= Rpower (r - l) c) by (intros; apply Rle_Rpower_l; lra).
  exists (fun x => Rpower (r - x) (a + 1) * (Rpower (x - l) (b + 1) * (/ s * q ((x - o) / s)))), 0, 0.
  split; [|split; [|split; [|lra]]].
  - intros x Hx. eapply D_eq.
    + apply D_mult; [apply D_rpower; [apply D_minus; [apply D_const|apply D_id]|cbv beta; lra]|].
      apply D_mult; [apply D_rpower; [apply D_minus; [apply D_id|apply D_const]|cbv beta; lra]|].
      apply D_mult; [apply D_const|apply Hqt].
    + cbv beta. rewrite !rpower_S by lra. rewrite Hf. replace ((x - (l + (r - l) / 2)) / ((r - l) / 2)) with ((x - o) / s) by reflexivity.
      set (t := (x - o) / s). assert (Ex : x = o + s * t) by (unfold t; field; lra).
      assert (E1 : r - x = s * (1 - t)) by (rewrite Ex; unfold o, s; field). assert (E2 : x - l = s * (1 + t)) by (rewrite Ex; unfold o, s; field).
      set (w1 := Rpower (r - x) a). set (w2 := Rpower (x - l) b). rewrite E1, E2. field. lra.
  -
    assert (L := lim_end l r l (fun x => x - l) (fun x => Rpower (r - x) (a + 1) * (/ s * q ((x - o) / s))) (b + 1) ltac:(lra)).
    assert (L' : limit1_in (fun x => Rpower (x - l) (b + 1) * (Rpower (r - x) (a + 1) * (/ s * q ((x - o) / s)))) (fun x => l < x < r) 0 l).
    { apply L.
      - intros x Hx. rewrite Rabs_right; lra.
      - destruct (Bd l) as (M & d & Hd & HM). exists (Rpower (r - l) (a + 1) * (/ s * M)), d. split; auto. intros x Hx Hdx.
        rewrite !Rabs_mult, (Rabs_right (Rpower _ _)), (Rabs_right (/ s)) by (left; try apply exp_pos; apply Rinv_0_lt_compat; lra).
        assert (Is : 0 < / s) by (apply Rinv_0_lt_compat; lra).
        apply Rmult_le_compat; [left; apply exp_pos|apply Rmult_le_pos; [lra|apply Rabs_pos]|apply Mn; lra|].
        apply Rmult_le_compat_l; [lra|auto]. }
    intros eps He. destruct (L' eps He) as (al & Hal & Hb'). exists al. split; auto. intros x Hx. specialize (Hb' x Hx).
    replace (Rpower (r - x) (a + 1) * (Rpower (x - l) (b + 1) * (/ s * q ((x - o) / s))))
      with (Rpower (x - l) (b + 1) * (Rpower (r - x) (a + 1) * (/ s * q ((x - o) / s)))) by ring. auto.
  - assert (L := lim_end l r r (fun x => r - x) (fun x => Rpower (x - l) (b + 1) * (/ s * q ((x - o) / s))) (a + 1) ltac:(lra)).
    apply L.
    + intros x Hx. rewrite Rabs_left; lra.
    + destruct (Bd r) as (M & d & Hd & HM). exists (Rpower (r - l) (b + 1) * (/ s * M)), d. split; auto. intros x Hx Hdx.
      rewrite !Rabs_mult, (Rabs_right (Rpower _ _)), (Rabs_right (/ s)) by (left; try apply exp_pos; apply Rinv_0_lt_compat; lra).
      assert (Is : 0 < / s) by (apply Rinv_0_lt_compat; lra).
      apply Rmult_le_compat; [left; apply exp_pos|apply Rmult_le_pos; [lra|apply Rabs_pos]|apply Mn; lra|].
      apply Rmult_le_compat_l; [lra|auto].
Qed.

(** ** Hermite *)
Lemma gaussian_mean_anti : forall f G mu, continuity f -> vanish G ->
  (forall x, D G x ((f x - mu) * phi x)) -> gaussian_mean f mu.
Proof.
  intros f G mu Cf VG DG. set (g := fun x => (f x - mu) * phi x) in *.
  assert (Eg : forall x, f x * phi x = g x + mu * phi x) by (intros; unfold g; ring).
  assert (Cp : continuity (fun x => f x * phi x)).
  { intros x. apply (continuity_pt_mult f phi); [apply Cf|apply phi_cont]. }
  assert (Cg : continuity g).
  { apply (cont_ext (fun x => f x * phi x - mu * phi x)); [intros t; rewrite Eg; ring|]. intros x.
    apply (continuity_pt_minus (fun x => f x * phi x) (fun x => mu * phi x)); [apply Cp|].
    apply (continuity_pt_scal phi mu). apply phi_cont. }
  assert (P1 := phi_pos 1).
  intros eps He. destruct (VG (eps * phi 1 / 2)) as (T0 & HT0 & HV).
  { apply Rmult_lt_0_compat; [|lra]. apply Rmult_lt_0_compat; auto. }
  exists (Rmax 1 T0). intros T HT. assert (M1 := Rmax_l 1 T0). assert (M2 := Rmax_r 1 T0).
  assert (p1 : Riemann_integrable (fun x => f x * exp (- (x * x / 2))) (- T) T).
  { apply continuity_implies_RiemannInt; [lra|]. intros x _. apply Cp. }
  assert (p2 : Riemann_integrable (fun x => exp (- (x * x / 2))) (- T) T).
  { apply continuity_implies_RiemannInt; [lra|]. intros x _. apply phi_cont. }
  assert (pg : Riemann_integrable g (- T) T).
  { apply continuity_implies_RiemannInt; [lra|]. intros x _. apply Cg. }
  exists p1, p2. assert (Mass : 2 * phi 1 <= RiemannInt p2) by exact (phi_mass T p2 ltac:(lra)). split; [lra|].
  assert (E1 : RiemannInt p1 = RiemannInt pg + mu * RiemannInt p2).
  { assert (pr3 : Riemann_integrable (fun x => g x + mu * phi x) (- T) T) by (apply RiemannInt_P10; auto).
    transitivity (RiemannInt pr3); [apply RiemannInt_P18; [lra|]; intros x _; apply Eg|exact (RiemannInt_P13 pg p2 pr3)]. }
  assert (E2 : RiemannInt pg = G T - G (- T)) by (apply ftc; [lra|exact DG|exact Cg]).
  set (I2 := RiemannInt p2) in *.
  replace (RiemannInt p1 / I2 - mu) with ((G T - G (- T)) / I2) by (rewrite E1, E2; field; lra).
  assert (A1 := HV T ltac:(rewrite Rabs_right; lra)). assert (A2 := HV (- T) ltac:(rewrite Rabs_left; lra)).
  unfold Rdiv. rewrite Rabs_mult, (Rabs_right (/ I2)) by (left; apply Rinv_0_lt_compat; lra).
  apply (Rmult_lt_reg_r I2); [lra|]. rewrite Rmult_assoc, Rinv_l, Rmult_1_r by lra.
  assert (A3 := Rabs_triang (G T) (- G (- T))). rewrite Rabs_Ropp in A3. unfold Rminus.
  nra.
Qed.
Definition hal (k : nat) : R := 0.
Definition he := mono hal INR.
Lemma he_deriv : forall k x, dmono hal INR k x = INR k * prev he k x.
Proof.
  unfold he. apply (pair_ind (fun k => forall x, dmono hal INR k x = INR k * prev (mono hal INR) k x)); intros.
  - rewrite dmono_0. simpl. ring.
  - rewrite dmono_1. simpl. rewrite mono_0. ring.
  - rewrite dmono_SS, H, H0. cbn [prev]. assert (E := mono_x hal INR k x).
    replace (mono hal INR (S k) x) with (x * mono hal INR k x - INR k * prev (mono hal INR) k x) by (rewrite E; unfold hal; ring).
    unfold hal. rewrite !S_INR. ring.
Qed.
Lemma he_vanish : forall i j k, vanish (fun x => x ^ k * (he i x * he j x * phi x)).
Proof.
  unfold he. apply (pair_ind (fun i => forall j k, vanish (fun x => x ^ k * (mono hal INR i x * mono hal INR j x * phi x)))).
  - apply (pair_ind (fun j => forall k, vanish (fun x => x ^ k * (mono hal INR 0 x * mono hal INR j x * phi x)))).
    + intros k. apply (vanish_ext (fun x => x ^ k * phi x)); [intros; rewrite mono_0; ring|]. apply vanish_pow_phi.
    + intros k. apply (vanish_ext (fun x => x ^ S k * phi x)); [intros; rewrite mono_0, mono_1; unfold hal; simpl; ring|]. apply vanish_pow_phi.
    + intros j H0 H1 k.
      apply (vanish_ext (fun x => x ^ S k * (mono hal INR 0 x * mono hal INR (S j) x * phi x) + - INR (S j) * (x ^ k * (mono hal INR 0 x * mono hal INR j x * phi x)))).
      * intros x. rewrite mono_SS. unfold hal. simpl pow. ring.
      * apply vanish_plus; [apply H1|apply vanish_scal, H0].
  - intros j k. assert (E := fun x => mono_x hal INR j x).
    revert j k E. apply (pair_ind (fun j => forall k, (forall x, x * mono hal INR j x = mono hal INR (S j) x + hal j * mono hal INR j x + INR j * prev (mono hal INR) j x) -> vanish (fun x => x ^ k * (mono hal INR 1 x * mono hal INR j x * phi x)))).
    + intros k _. apply (vanish_ext (fun x => x ^ S k * phi x)); [intros; rewrite mono_0, mono_1; unfold hal; simpl; ring|]. apply vanish_pow_phi.
    + intros k _. apply (vanish_ext (fun x => x ^ S (S k) * phi x)); [intros; rewrite mono_1; unfold hal; simpl; ring|]. apply vanish_pow_phi.
    + intros j H0 H1 k _.
      apply (vanish_ext (fun x => x ^ S k * (mono hal INR 1 x * mono hal INR (S j) x * phi x) + - INR (S j) * (x ^ k * (mono hal INR 1 x * mono hal INR j x * phi x)))).
      * intros x. rewrite mono_SS. unfold hal. simpl pow. ring.
      * apply vanish_plus; [apply H1; intros; apply mono_x|apply vanish_scal, H0; intros; apply mono_x].
  - intros i H0 H1 j k.
    apply (vanish_ext (fun x => x ^ S k * (mono hal INR (S i) x * mono hal INR j x * phi x) + - INR (S i) * (x ^ k * (mono hal INR i x * mono hal INR j x * phi x)))).
    + intros x. rewrite mono_SS. unfold hal. simpl pow. ring.
    + apply vanish_plus; [apply H1|apply vanish_scal, H0].
Qed.
(** the antiderivative of (He_n He_i - [n = i] i!) phi is minus a sum of products He He phi *)
Lemma he_anti : forall i n, (i <= n)%nat -> exists G, vanish G /\
  forall x, D G x ((he n x * he i x - if Nat.eqb n i then INR (fact i) else 0) * phi x).
Proof.
  assert (St : forall n i (G : R -> R) c, vanish G -> (forall x, D G x ((INR i * (he n x * prev he i x) - c) * phi x)) ->
    exists G', vanish G' /\ forall x, D G' x ((he (S n) x * he i x - c) * phi x)).
  { intros n i G c VG DG. exists (fun x => -1 * (he n x * he i x * phi x) + G x). split.
    - apply vanish_plus; auto. apply vanish_scal. apply (vanish_ext (fun x => x ^ 0 * (he n x * he i x * phi x))); [intros; simpl; ring|apply he_vanish].
    - intros x. eapply D_eq.
      + apply D_plus; [|apply DG]. apply D_mult; [apply D_const|]. apply D_mult; [|apply phi_deriv].
        apply D_mult; apply mono_deriv.
      + cbv beta. change (mono hal INR) with he. rewrite !he_deriv. assert (E := mono_x hal INR n x). fold he in E. change (mono hal INR n x) with (he n x) in E.
        replace (he (S n) x) with (x * he n x - INR n * prev he n x) by (rewrite E; unfold hal; ring). ring. }
  induction i as [|i IH]; intros n Hn.
  - destruct n as [|n].
    + exists (fun _ => 0). split; [apply vanish_0|]. intros x. eapply D_eq; [apply D_const|]. unfold he. rewrite mono_0. simpl. ring.
    + apply (St n 0%nat (fun _ => 0)); [apply vanish_0|]. intros x. eapply D_eq; [apply D_const|]. simpl. ring.
  - destruct n as [|n]; [lia|]. destruct (IH n ltac:(lia)) as (G & VG & DG).
    assert (Ec : (if Nat.eqb (S n) (S i) then INR (fact (S i)) else 0) = INR (S i) * (if Nat.eqb n i then INR (fact i) else 0)).
    { simpl Nat.eqb. destruct (Nat.eqb n i); [|ring]. change (fact (S i)) with (S i * fact i)%nat. apply mult_INR. }
    rewrite Ec. apply (St n (S i) (fun x => INR (S i) * G x)); [now apply vanish_scal|].
    intros x. eapply D_eq; [apply D_mult; [apply D_const|apply DG]|cbv beta; cbn [prev]; ring].
Qed.
Lemma he_orthogonal : forall i n, (i <= n)%nat ->
  gaussian_mean (fun x => he n x * he i x) (if Nat.eqb n i then INR (fact i) else 0).
Proof.
  intros i n H. destruct (he_anti i n H) as (G & VG & DG). apply (gaussian_mean_anti _ G); auto.
  intros x. apply derivable_continuous_pt. eexists. apply D_mult; apply mono_deriv.
Qed.
