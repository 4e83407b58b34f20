(** Proofs about polynomial surfaces in floating point *)
From Coq Require Import Reals Lra Lia List Arith ZArith Bool Permutation.
From Verif Require Import Prelude Py NumArr LinAlg Lsq M_Misc M_RespSurf M_Float M_FloatPoly P_Misc P_Poly P_Float P_FloatCode P_FloatInt.
Import ListNotations.
Open Scope R_scope.

(** ** Products *)
Definition prodl (l : list R) : R := fold_right Rmult 1 l.
Lemma prodl_app : forall a b, prodl (a ++ b) = prodl a * prodl b.
Proof. induction a; intros b; simpl; [ring|]. rewrite IHa. ring. Qed.
Lemma prodl_perm : forall a b, Permutation a b -> prodl a = prodl b.
Proof. induction 1; simpl; try congruence; ring. Qed.
Lemma prodl_seq : forall n (f : nat -> R), prodl (map f (seq 0 n)) = prodf n f.
Proof. induction n; intros f; [reflexivity|]. rewrite seq_S, map_app, prodl_app, IHn. simpl. ring. Qed.
Lemma prodl_perm_seq : forall (f : nat -> R) l n, Permutation l (seq 0 n) -> prodl (map f l) = prodf n f.
Proof. intros. rewrite <- prodl_seq. apply prodl_perm, Permutation_map. auto. Qed.
Lemma prodf_abs : forall n f, Rabs (prodf n f) = prodf n (fun i => Rabs (f i)).
Proof. induction n; intros f; simpl; [apply Rabs_R1|]. now rewrite Rabs_mult, IHn. Qed.
Lemma prodf_ge1 : forall n f, (forall i, (i < n)%nat -> 1 <= f i) -> 1 <= prodf n f.
Proof. induction n; intros f H; simpl; [lra|]. rewrite <- (Rmult_1_l 1). apply Rmult_le_compat; try lra; auto. Qed.

Lemma ge1_mult : forall a b, 1 <= a -> 1 <= b -> 1 <= a * b.
Proof. intros. nra. Qed.

(** relative error g1 and absolute error h - g, both in terms of a majorant A >= 1 *)
Definition near_to (g h q p A : R) : Prop := Rabs (q - p) <= (g - 1) * Rabs p + (h - g) * A.

Lemma near_to_mult : forall g1 h1 q1 p1 A1 g2 h2 q2 p2 A2, 1 <= g1 <= h1 -> 1 <= g2 <= h2 -> Rabs p1 <= A1 -> Rabs p2 <= A2 ->
  near_to g1 h1 q1 p1 A1 -> near_to g2 h2 q2 p2 A2 -> near_to (g1 * g2) (h1 * h2) (q1 * q2) (p1 * p2) (A1 * A2).
Proof.
  unfold near_to. intros g1 h1 q1 p1 A1 g2 h2 q2 p2 A2 G1 G2 P1 P2 N1 N2. rewrite Rabs_mult.
  assert (a1 := Rabs_pos p1). assert (a2 := Rabs_pos p2). set (x1 := Rabs p1) in *. set (x2 := Rabs p2) in *.
  replace (q1 * q2 - p1 * p2) with ((q1 - p1) * (q2 - p2) + (p1 * (q2 - p2) + (q1 - p1) * p2)) by ring.
  set (e1 := (g1 - 1) * x1 + (h1 - g1) * A1) in *. set (e2 := (g2 - 1) * x2 + (h2 - g2) * A2) in *.
  apply Rle_trans with (e1 * e2 + (x1 * e2 + e1 * x2)).
  - apply Rle_trans with (1 := Rabs_triang _ _). apply Rplus_le_compat.
    + rewrite Rabs_mult. apply Rmult_le_compat; auto; apply Rabs_pos.
    + apply Rle_trans with (1 := Rabs_triang _ _). rewrite !Rabs_mult. apply Rplus_le_compat; [apply Rmult_le_compat_l|apply Rmult_le_compat_r]; auto.
  - assert (X1 : 0 <= (h2 - g2) * g1 * ((A1 - x1) * A2)) by (repeat apply Rmult_le_pos; lra).
    assert (X2 : 0 <= (h1 - g1) * g2 * ((A2 - x2) * A1)) by (repeat apply Rmult_le_pos; lra).
    unfold e1, e2. nra.
Qed.

Section Mono.
  Variable F : format.
  Let c := 1 + ulp1 F.
  Let n := eta F.

  Lemma near_to_rnd : forall g h q p A, 1 <= g <= h -> Rabs p <= A -> 1 <= A -> near_to g h q p A -> near_to (c * g) ((c + n) * h) (rnd F q) p A.
  Proof.
    unfold near_to. intros g h q p A G P A1 N. assert (E := rnd_err F q). fold n in E. assert (U := ulp1_pos F). assert (Pn := eta_pos F). fold n in Pn.
    assert (Q : Rabs q <= Rabs p + ((g - 1) * Rabs p + (h - g) * A)) by (replace q with (p + (q - p)) by ring; apply Rle_trans with (1 := Rabs_triang _ _); lra).
    replace (rnd F q - p) with ((rnd F q - q) + (q - p)) by ring. apply Rle_trans with (1 := Rabs_triang _ _).
    assert (Q2 : ulp1 F * Rabs q <= ulp1 F * (Rabs p + ((g - 1) * Rabs p + (h - g) * A))) by (apply Rmult_le_compat_l; lra).
    assert (X : n * 1 <= n * (h * A)) by (apply Rmult_le_compat_l; [lra|]; apply ge1_mult; lra).
    unfold c. nra.
  Qed.

  Definition Gp (d : R) (k : nat) := c ^ (k - 1) * (1 + d) ^ k.
  Definition Hp (d : R) (k : nat) := (c + n) ^ (k - 1) * (1 + d + n) ^ k.

  Lemma Gp_Hp : forall d k, 0 <= d -> 1 <= Gp d k <= Hp d k.
  Proof.
    intros d k D. assert (U := ulp1_pos F). assert (Pn := eta_pos F). fold n in Pn. unfold Gp, Hp.
    assert (A1 : 1 <= c ^ (k - 1)) by (apply pow_R1_Rle; unfold c; lra). assert (A2 : 1 <= (1 + d) ^ k) by (apply pow_R1_Rle; lra).
    assert (B1 : c ^ (k - 1) <= (c + n) ^ (k - 1)) by (apply pow_incr; unfold c; lra). assert (B2 : (1 + d) ^ k <= (1 + d + n) ^ k) by (apply pow_incr; lra).
    split; [apply ge1_mult; lra|apply Rmult_le_compat; lra].
  Qed.

  Lemma pfl_err : forall (d : R) t (q p A : nat -> R), 0 <= d -> (forall i, In i (sleaves t) -> 1 <= A i /\ Rabs (p i) <= A i /\ near_to (1 + d) (1 + d + n) (q i) (p i) (A i)) ->
    near_to (Gp d (List.length (sleaves t))) (Hp d (List.length (sleaves t))) (pfl F t q) (prodl (map p (sleaves t))) (prodl (map A (sleaves t))) /\
    Rabs (prodl (map p (sleaves t))) <= prodl (map A (sleaves t)) /\ 1 <= prodl (map A (sleaves t)) /\ (1 <= List.length (sleaves t))%nat.
  Proof.
    intros d t q p A D. induction t as [i|l IHl r IHr]; intros H.
    - cbn [sleaves pfl List.length map]. unfold prodl, Gp, Hp. cbn [fold_right]. rewrite !Rmult_1_r. destruct (H i (or_introl eq_refl)) as (H1 & H2 & H3). simpl pow. rewrite !Rmult_1_l, !Rmult_1_r. repeat split; auto.
    - cbn [sleaves pfl] in *. destruct IHl as (L1 & L2 & L3 & L4); [intros; apply H, in_or_app; auto|]. destruct IHr as (R1 & R2 & R3 & R4); [intros; apply H, in_or_app; auto|].
      rewrite !map_app, !prodl_app, app_length. set (a := List.length (sleaves l)) in *. set (b := List.length (sleaves r)) in *.
      assert (Ga := Gp_Hp d a D). assert (Gb := Gp_Hp d b D).
      assert (PA : Rabs (prodl (map p (sleaves l)) * prodl (map p (sleaves r))) <= prodl (map A (sleaves l)) * prodl (map A (sleaves r))) by (rewrite Rabs_mult; apply Rmult_le_compat; auto; apply Rabs_pos).
      assert (P1 : 1 <= prodl (map A (sleaves l)) * prodl (map A (sleaves r))) by (apply ge1_mult; lra).
      split; [|split; [exact PA|split; [exact P1|lia]]].
      assert (N := near_to_mult _ _ _ _ _ _ _ _ _ _ Ga Gb L2 R2 L1 R1).
      apply near_to_rnd in N; auto.
      + replace (Gp d (a + b)) with (c * (Gp d a * Gp d b)); [replace (Hp d (a + b)) with ((c + n) * (Hp d a * Hp d b)); [exact N|]|].
        * unfold Hp. replace (a + b - 1)%nat with (S ((a - 1) + (b - 1))) by lia. rewrite <- tech_pow_Rmult, !pow_add. ring.
        * unfold Gp. replace (a + b - 1)%nat with (S ((a - 1) + (b - 1))) by lia. rewrite <- tech_pow_Rmult, !pow_add. ring.
      + split; [apply ge1_mult; lra|apply Rmult_le_compat; lra].
  Qed.
End Mono.
