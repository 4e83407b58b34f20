(** polynomials in several variables: sums, products, linear substitutions, and
    the coefficients of the zero polynomial *)
From Coq Require Import Reals Lra Lia List Arith Bool.
From Verif Require Import Prelude Py NumArr M_RespSurf P_IndexSet P_Poly P_PolyFacts.
Import ListNotations.
Open Scope R_scope.

(** p is a sum of terms of degree <= N in n variables *)
Definition is_poly (n N : nat) (p : (nat -> R) -> R) : Prop :=
  exists T a e, (forall t, (t < T)%nat -> (nsum n (e t) <= N)%nat) /\ forall x, p x = terms_eval n T a e x.

Lemma nsum_S : forall n f, nsum (S n) f = (nsum n f + f n)%nat.
Proof. intros. unfold nsum. rewrite seq_S, map_app, list_sum_app. simpl. lia. Qed.
Lemma nsum_zero : forall n f, (forall i, (i < n)%nat -> f i = 0%nat) -> nsum n f = 0%nat.
Proof. induction n; intros f H; [reflexivity|]. rewrite nsum_S, IHn, H by (auto with arith). reflexivity. Qed.
Lemma nsum_plus : forall n f g, nsum n (fun i => f i + g i)%nat = (nsum n f + nsum n g)%nat.
Proof. induction n; intros f g; [reflexivity|]. rewrite !nsum_S, IHn. lia. Qed.
Lemma nsum_single : forall n j f, (j < n)%nat -> (forall i, (i < n)%nat -> i <> j -> f i = 0%nat) -> nsum n f = f j.
Proof.
  induction n; intros j f Hj H; [lia|]. rewrite nsum_S. destruct (Nat.eq_dec j n) as [->|NE].
  - rewrite nsum_zero; [reflexivity|]. intros i Hi. apply H; lia.
  - rewrite (IHn j f), (H n) by (try lia; intros; apply H; lia). lia.
Qed.
Lemma prodf_one : forall n f, (forall i, (i < n)%nat -> f i = 1) -> prodf n f = 1.
Proof. induction n; intros f H; simpl; [reflexivity|]. rewrite IHn, H by auto. ring. Qed.
Lemma prodf_mult : forall n f g, prodf n (fun i => f i * g i) = prodf n f * prodf n g.
Proof. induction n; intros f g; simpl; [ring|]. rewrite IHn. ring. Qed.
Lemma prodf_at : forall n j f, (j < n)%nat -> (forall i, (i < n)%nat -> i <> j -> f i = 1) -> prodf n f = f j.
Proof.
  induction n; intros j f Hj H; [lia|]. simpl. destruct (Nat.eq_dec j n) as [->|NE].
  - rewrite prodf_one; [ring|]. intros i Hi. apply H; lia.
  - rewrite (IHn j f), (H n) by (try lia; intros; apply H; lia). ring.
Qed.

Lemma is_poly_ext : forall n N p q, (forall x, p x = q x) -> is_poly n N p -> is_poly n N q.
Proof. intros n N p q H (T & a & e & D & E). exists T, a, e. split; auto. intros x. rewrite <- H. auto. Qed.
Lemma is_poly_le : forall n N N' p, (N <= N')%nat -> is_poly n N p -> is_poly n N' p.
Proof. intros n N N' p H (T & a & e & D & E). exists T, a, e. split; auto. intros t Ht. specialize (D t Ht). lia. Qed.
Lemma is_poly_const : forall n N c, is_poly n N (fun _ => c).
Proof.
  intros n N c. exists 1%nat, (fun _ => c), (fun _ _ => 0%nat). split.
  - intros t _. rewrite nsum_zero by auto. lia.
  - intros x. unfold terms_eval. cbn [sumf]. rewrite prodf_one by reflexivity. ring.
Qed.
Lemma is_poly_var : forall n j, (j < n)%nat -> is_poly n 1 (fun x => x j).
Proof.
  intros n j Hj. exists 1%nat, (fun _ => 1), (fun _ i => if Nat.eqb i j then 1%nat else 0%nat). split.
  - intros t _. rewrite (nsum_single n j) by (auto; intros i _ Hi; apply Nat.eqb_neq in Hi; now rewrite Hi). now rewrite Nat.eqb_refl.
  - intros x. unfold terms_eval. cbn [sumf]. rewrite (prodf_at n j) by (auto; intros i _ Hi; apply Nat.eqb_neq in Hi; now rewrite Hi). rewrite Nat.eqb_refl. simpl. ring.
Qed.
Lemma is_poly_scal : forall n N c p, is_poly n N p -> is_poly n N (fun x => c * p x).
Proof.
  intros n N c p (T & a & e & D & E). exists T, (fun t => c * a t), e. split; auto. intros x. rewrite E. unfold terms_eval. rewrite <- sumf_scal_l. apply sumf_ext. intros; ring.
Qed.
Lemma is_poly_plus : forall n N p q, is_poly n N p -> is_poly n N q -> is_poly n N (fun x => p x + q x).
Proof.
  intros n N p q (T & a & e & D & E) (T' & a' & e' & D' & E').
  exists (T + T')%nat, (fun t => if Nat.ltb t T then a t else a' (t - T)%nat), (fun t => if Nat.ltb t T then e t else e' (t - T)%nat). split.
  - intros t Ht. destruct (Nat.ltb_spec t T); [apply D; auto | apply D'; lia].
  - intros x. rewrite E, E'. unfold terms_eval. rewrite (sumf_split T). f_equal; apply sumf_ext; intros t Ht.
    + apply Nat.ltb_lt in Ht. now rewrite Ht.
    + replace (Nat.ltb (T + t) T) with false by (symmetry; apply Nat.ltb_ge; lia). now replace (T + t - T)%nat with t by lia.
Qed.
Lemma is_poly_sum : forall n N k p, (forall i, (i < k)%nat -> is_poly n N (p i)) -> is_poly n N (fun x => sumf k (fun i => p i x)).
Proof.
  intros n N. induction k; intros p H; [exact (is_poly_const n N 0)|]. cbn [sumf]. apply is_poly_plus; [apply IHk; auto | apply H; lia].
Qed.
Lemma is_poly_mult : forall n N N' p q, is_poly n N p -> is_poly n N' q -> is_poly n (N + N') (fun x => p x * q x).
Proof.
  intros n N N' p q (T & a & e & D & E) (T' & a' & e' & D' & E').
  apply is_poly_ext with (fun x => sumf T (fun t => a t * (prodf n (fun j => x j ^ e t j) * q x))).
  - intros x. rewrite E. unfold terms_eval. rewrite <- sumf_scal_r. apply sumf_ext. intros; ring.
  - apply is_poly_sum. intros t Ht. apply is_poly_scal. exists T', a', (fun t' j => (e t j + e' t' j)%nat). split.
    + intros t' Ht'. rewrite nsum_plus. specialize (D t Ht). specialize (D' t' Ht'). lia.
    + intros x. rewrite E'. unfold terms_eval. rewrite <- sumf_scal_l. apply sumf_ext. intros t' _.
      rewrite (prodf_ext n (fun j => x j ^ (e t j + e' t' j)) (fun j => x j ^ e t j * x j ^ e' t' j)) by (intros; apply pow_add).
      rewrite prodf_mult. ring.
Qed.
Lemma is_poly_pow : forall n N p k, is_poly n N p -> is_poly n (k * N) (fun x => p x ^ k).
Proof.
  intros n N p. induction k; intros H; [exact (is_poly_const n _ 1)|]. cbn [pow Nat.mul]. apply is_poly_mult; auto.
Qed.
Lemma is_poly_prod : forall n k (p : nat -> (nat -> R) -> R) (N : nat -> nat), (forall i, (i < k)%nat -> is_poly n (N i) (p i)) ->
  is_poly n (nsum k N) (fun x => prodf k (fun i => p i x)).
Proof.
  intros n. induction k; intros p N H; [exact (is_poly_const n _ 1)|]. rewrite nsum_S. cbn [prodf]. apply is_poly_mult; [apply IHk; auto | apply H; lia].
Qed.
Lemma is_poly_linear : forall n (K : nat -> R), is_poly n 1 (fun x => sumf n (fun i => K i * x i)).
Proof. intros n K. apply (is_poly_sum n 1 n (fun i x => K i * x i)). intros i Hi. apply is_poly_scal, is_poly_var. exact Hi. Qed.

(** a linear substitution does not raise the degree *)
Lemma is_poly_comp : forall n k N p (K : nat -> nat -> R), is_poly n N p -> is_poly k N (fun y => p (fun a => sumf k (fun q => K a q * y q))).
Proof.
  intros n k N p K (T & a & e & D & E).
  apply is_poly_ext with (fun y => sumf T (fun t => a t * prodf n (fun j => (sumf k (fun q => K j q * y q)) ^ e t j))).
  - intros y. now rewrite E.
  - apply is_poly_sum. intros t Ht. apply is_poly_scal. apply is_poly_le with (nsum n (e t)); [apply D; auto|].
    apply (is_poly_prod k n (fun j y => (sumf k (fun q => K j q * y q)) ^ e t j) (e t)).
    intros j Hj. apply is_poly_le with (e t j * 1)%nat; [lia|]. apply is_poly_pow, is_poly_linear.
Qed.

(** a polynomial in one variable with n different roots and n coefficients *)
Definition upol (n : nat) (c : nat -> R) (t : R) : R := sumf n (fun q => c q * t ^ q).
Lemma upol_S : forall n c t, upol (S n) c t = c 0%nat + t * upol n (fun q => c (S q)) t.
Proof.
  intros n c t. unfold upol. rewrite sumf_shift. simpl. rewrite <- sumf_scal_l. f_equal; [lra |]. apply sumf_ext. intros; ring.
Qed.
(** zero at every t > 0: divide by t *)
Lemma upol_zero : forall n c, (forall t, upol n c t = 0) -> forall q, (q < n)%nat -> c q = 0.
Proof.
  assert (K : forall n c, (forall t, t <> 0 -> upol n c t = 0) -> forall q, (q < n)%nat -> c q = 0).
  { induction n as [|n IH]; intros c H q Hq; [lia|].
    assert (C0 : c 0%nat = 0).
    { destruct (Req_dec (c 0%nat) 0) as [E|NE]; auto. exfalso.
      (* continuity at 0 *)
      assert (CT : forall d, continuity_pt (upol n d) 0).
      { intros d. unfold upol. clear. induction n as [|n IHn]; [apply continuity_pt_const; intros x y; reflexivity|]. cbn [sumf].
        apply (continuity_pt_plus (fun t => sumf n (fun q => d q * t ^ q)) (fun t => d n * t ^ n)); [exact IHn|].
        apply derivable_continuous_pt. exists (d n * (INR n * 0 ^ pred n)). apply (derivable_pt_lim_scal (fun t => t ^ n)). apply derivable_pt_lim_pow. }
      specialize (CT (fun q => c (S q))). set (v := upol n (fun q => c (S q))) in *.
      destruct (CT 1 ltac:(lra)) as (al & Hal & HB).
      set (b := Rabs (v 0) + 1). assert (Hb : 0 < b) by (unfold b; pose proof (Rabs_pos (v 0)); lra).
      pose proof (Rabs_pos_lt _ NE) as Hc.
      set (t := Rmin (al / 2) (Rabs (c 0%nat) / (2 * b))).
      assert (Ht : 0 < t). { apply Rmin_pos; [lra|]. apply Rdiv_lt_0_compat; lra. }
      assert (T1 : t <= al / 2) by apply Rmin_l. assert (T2 : t <= Rabs (c 0%nat) / (2 * b)) by apply Rmin_r.
      assert (B : Rabs (v t) <= b).
      { destruct (Req_dec 0 t) as [E|E]; [rewrite <- E; unfold b; lra|].
        assert (Q : Rabs (v t - v 0) < 1).
        { apply HB. split; [split; [exact I | exact E]|]. simpl. unfold R_dist. rewrite Rminus_0_r, Rabs_right; lra. }
        unfold b. replace (v t) with (v t - v 0 + v 0) by ring.
        eapply Rle_trans; [apply Rabs_triang|]. lra. }
      assert (E := H t ltac:(lra)). rewrite upol_S in E. fold v in E.
      assert (E2 : Rabs (c 0%nat) = t * Rabs (v t)). { replace (c 0%nat) with (- (t * v t)) by lra. rewrite Rabs_Ropp, Rabs_mult, (Rabs_right t) by lra. reflexivity. }
      assert (E3 : t * Rabs (v t) <= t * b) by (apply Rmult_le_compat_l; lra).
      assert (E4 : t * b <= Rabs (c 0%nat) / (2 * b) * b) by (apply Rmult_le_compat_r; lra).
      replace (Rabs (c 0%nat) / (2 * b) * b) with (Rabs (c 0%nat) / 2) in E4 by (field; lra). lra. }
    destruct q as [|q]; auto. apply (IH (fun q => c (S q))); [|lia]. intros t Ht. specialize (H t Ht). rewrite upol_S, C0 in H.
    apply Rmult_eq_reg_l with t; auto. lra. }
  intros n c H. apply K. auto.
Qed.

(** a list of digits below B as a number *)
Fixpoint code (B : nat) (l : list nat) : nat := match l with [] => 0 | x :: l => x + B * code B l end.
Lemma code_inj : forall B l l', length l = length l' -> (forall x, In x l -> x < B)%nat -> (forall x, In x l' -> x < B)%nat -> code B l = code B l' -> l = l'.
Proof.
  induction l as [|x l IH]; intros [|y l'] HL H H' E; try discriminate; auto. simpl in *.
  assert (X := H x (or_introl eq_refl)). assert (Y := H' y (or_introl eq_refl)).
  assert (x = y). { rewrite <- (Nat.mod_small x B X), <- (Nat.mod_small y B Y). rewrite <- (Nat.mod_add x (code B l) B) by lia. rewrite <- (Nat.mod_add y (code B l') B) by lia. f_equal. lia. }
  subst y. f_equal. apply IH; auto. apply Nat.mul_cancel_l with B; lia.
Qed.
Lemma prodf_shift : forall n f, prodf (S n) f = f 0%nat * prodf n (fun i => f (S i)).
Proof. induction n; intros f; [simpl; ring|]. change (prodf (S (S n)) f) with (prodf (S n) f * f (S n)). rewrite IHn. simpl. ring. Qed.
Lemma code_pow : forall B l t k, prodf (length l) (fun j => (t ^ (k * B ^ j)) ^ nth j l 0%nat) = t ^ (k * code B l).
Proof.
  induction l as [|x l IH]; intros t k. { simpl. now rewrite Nat.mul_0_r. }
  cbn [length]. rewrite prodf_shift. cbn [nth code]. rewrite Nat.pow_0_r, Nat.mul_1_r.
  rewrite (prodf_ext _ _ (fun j => (t ^ ((k * B) * B ^ j)) ^ nth j l 0%nat)).
  - rewrite IH, <- pow_mult, <- pow_add. f_equal. ring.
  - intros j _. do 2 f_equal. simpl. ring.
Qed.

Lemma list_sum_ge : forall l x, In x l -> (x <= list_sum l)%nat.
Proof. induction l; intros x []; simpl; [subst; lia|]. specialize (IHl x H). lia. Qed.

(** the monomials of degree <= N are independent functions *)
Lemma poly_eval_zero : forall N m L w, (1 <= m)%nat -> index_set N m = Ok L -> (forall x, poly_eval m L w x = 0) -> forall c, (c < length L)%nat -> w c = 0.
Proof.
  intros N m L w Hm HL H c Hc.
  assert (ROW : forall i, (i < length L)%nat -> length (nth i L []) = m /\ (list_sum (nth i L []) <= N)%nat).
  { intros i Hi. apply (index_set_In N m Hm L _ HL). now apply nth_In. }
  set (B := S N). set (ex := fun i => code B (nth i L [])).
  assert (INJ : forall i j, (i < length L)%nat -> (j < length L)%nat -> ex i = ex j -> i = j).
  { intros i j Hi Hj E. apply (proj1 (NoDup_nth L []) (index_set_NoDup N m Hm L HL)); auto.
    apply (code_inj B); auto; [destruct (ROW i Hi), (ROW j Hj); congruence | |]; intros x Hx; apply list_sum_ge in Hx; unfold B; [destruct (ROW i Hi) | destruct (ROW j Hj)]; lia. }
  set (K := S (list_sum (map ex (seq 0 (length L))))).
  assert (EK : forall i, (i < length L)%nat -> (ex i < K)%nat).
  { intros i Hi. unfold K. apply Nat.lt_succ_r, list_sum_ge. apply in_map. apply in_seq. lia. }
  set (u := fun q => sumf (length L) (fun i => if Nat.eqb (ex i) q then w i else 0)).
  assert (U0 : forall q, (q < K)%nat -> u q = 0).
  { apply upol_zero. intros t. specialize (H (fun j => t ^ (1 * B ^ j))). rewrite <- H. unfold upol, u, poly_eval.
    transitivity (sumf K (fun q => sumf (length L) (fun i => (if Nat.eqb (ex i) q then w i else 0) * t ^ q))).
    { apply sumf_ext. intros. now rewrite sumf_scal_r. }
    rewrite sumf_swap. apply sumf_ext. intros i Hi.
    transitivity (w i * t ^ ex i).
    - rewrite (sumf_single K (ex i)); [now rewrite Nat.eqb_refl | auto |]. intros q _ Hq. destruct (Nat.eqb_spec (ex i) q); [congruence | ring].
    - unfold mono. destruct (ROW i Hi) as [E _]. rewrite <- E at 1. rewrite code_pow. unfold ex. rewrite Nat.mul_1_l. ring. }
  specialize (U0 (ex c) (EK c Hc)). unfold u in U0.
  rewrite (sumf_single (length L) c) in U0; [rewrite Nat.eqb_refl in U0; exact U0 | auto |].
  intros i Hi Hic. destruct (Nat.eqb_spec (ex i) (ex c)) as [E|E]; [destruct (Hic (INJ i c Hi Hc E)) | reflexivity].
Qed.

(** polynomials as sums over the index set *)
Lemma is_poly_eval : forall N m L w, (1 <= m)%nat -> index_set N m = Ok L -> is_poly m N (poly_eval m L w).
Proof.
  intros N m L w Hm HL. exists (length L), w, (fun t j => nth j (nth t L []) 0%nat). split.
  - intros t Ht. destruct (proj1 (index_set_In N m Hm L _ HL) (nth_In L [] Ht)) as [E D].
    unfold nsum. replace (map (fun j => nth j (nth t L []) 0%nat) (seq 0 m)) with (nth t L []); auto.
    apply (nth_ext _ _ 0%nat 0%nat); [rewrite map_length, seq_length; auto|]. intros j Hj. rewrite nth_map_seq by lia. reflexivity.
  - intros x. unfold poly_eval, terms_eval, mono. apply sumf_ext. intros; ring.
Qed.
