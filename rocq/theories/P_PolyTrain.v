(** Proofs about PolynomialApproximation.train *)
From Coq Require Import String Reals Lra Lia List Arith ZArith Bool Sorted.
From Verif Require Import Prelude Py NumArr LinAlg Lsq M_Misc M_RespSurf Sorting P_Misc P_IndexSet P_Poly.
Import ListNotations.
Open Scope R_scope.

Lemma bcast2_col : forall A B C (f : A -> B -> C) X Y r c, shape X = [r; 1%nat] -> shape Y = [r; c] ->
  exists Z, bcast2 f X Y = Ok Z /\ shape Z = [r; c] /\
  forall i j, (i < r)%nat -> (j < c)%nat -> Z.[i, j] = f (X.[i, 0%nat]) (Y.[i, j]).
Proof.
  intros A B C f X Y r c HX HY. unfold bcast2. rewrite HX, HY.
  assert (E : bdim 1 c = Some c).
  { unfold bdim. destruct (Nat.eqb_spec 1 c); [subst; reflexivity|]. reflexivity. }
  unfold bdim at 1. rewrite E, Nat.eqb_refl.
  eexists; split; [reflexivity|]. split; [reflexivity|]. intros i j Hi Hj.
  rewrite at_mk2, !(bidx_ok r), (bidx_ok c) by auto. reflexivity.
Qed.

(** ** the multi-indices of degree 2 *)
Definition b2n (b : bool) : nat := if b then 1%nat else 0%nat.
Definition pair_index (m a b : nat) : list nat :=
  map (fun j => (b2n (Nat.eqb j a) + b2n (Nat.eqb j b))%nat) (seq 0 m).

Lemma nth_pair : forall m a b j, (j < m)%nat -> nth j (pair_index m a b) 0%nat = (b2n (Nat.eqb j a) + b2n (Nat.eqb j b))%nat.
Proof. intros. unfold pair_index. rewrite nth_map_seq by auto. reflexivity. Qed.
Lemma pair_length : forall m a b, length (pair_index m a b) = m.
Proof. intros. unfold pair_index. now rewrite map_length, seq_length. Qed.
Lemma pair_sym : forall m a b, pair_index m a b = pair_index m b a.
Proof. intros. unfold pair_index. apply map_ext. intros. lia. Qed.

Lemma nth_ext_len : forall (l l' : list nat), length l = length l' ->
  (forall j, (j < length l)%nat -> nth j l 0%nat = nth j l' 0%nat) -> l = l'.
Proof. intros. apply (nth_ext _ _ 0%nat 0%nat); auto. Qed.

Lemma list_sum_pos_nth : forall l, (0 < list_sum l)%nat -> exists j, (j < length l)%nat /\ (0 < nth j l 0)%nat.
Proof.
  induction l as [|a l IH]; intros H; [simpl in H; lia|]. rewrite list_sum_cons in H. destruct a as [|a].
  - destruct IH as (j & H1 & H2); [lia|]. exists (S j). simpl. split; [lia|auto].
  - exists 0%nat. simpl. lia.
Qed.

Lemma list_sum_dec_at : forall l k, (k < length l)%nat -> (0 < nth k l 0)%nat -> list_sum l = S (list_sum (dec_at k l)).
Proof.
  induction l as [|a l IH]; intros k H1 H2; simpl in H1; [lia|]. destruct k as [|k]; cbn [dec_at].
  - simpl in H2. rewrite !list_sum_cons. lia.
  - simpl in H2. rewrite !list_sum_cons. rewrite (IH k) by (auto; lia). lia.
Qed.

Lemma degree2_pair : forall l, list_sum l = 2%nat -> exists a b, (a <= b < length l)%nat /\ l = pair_index (length l) a b.
Proof.
  intros l H. destruct (list_sum_pos_nth l) as (a & Ha1 & Ha2); [lia|].
  pose proof (list_sum_dec_at l a Ha1 Ha2) as H1.
  destruct (list_sum_pos_nth (dec_at a l)) as (b & Hb1 & Hb2); [lia|].
  pose proof (list_sum_dec_at (dec_at a l) b Hb1 Hb2) as H2. rewrite length_dec_at in Hb1.
  assert (Z : list_sum (dec_at b (dec_at a l)) = 0%nat) by lia. apply list_sum_0 in Z. rewrite !length_dec_at in Z.
  assert (E : l = pair_index (length l) a b).
  { apply nth_ext_len; [now rewrite pair_length|]. intros j Hj. rewrite nth_pair by auto.
    assert (Q : nth j (dec_at b (dec_at a l)) 0%nat = 0%nat) by (rewrite Z; apply nth_repeat).
    rewrite !nth_dec_at in Q. rewrite nth_dec_at in Hb2. unfold b2n in *.
    destruct (Nat.eqb_spec j a), (Nat.eqb_spec j b), (Nat.eqb_spec b a); subst; lia. }
  destruct (le_lt_dec a b).
  - exists a, b. split; [lia|auto].
  - exists b, a. split; [lia|]. now rewrite pair_sym.
Qed.

Lemma pair_inj : forall m a b c d, (a <= b < m)%nat -> (c <= d < m)%nat -> pair_index m a b = pair_index m c d -> a = c /\ b = d.
Proof.
  intros m a b c d H1 H2 E.
  assert (Q : forall j, (j < m)%nat -> (b2n (Nat.eqb j a) + b2n (Nat.eqb j b))%nat = (b2n (Nat.eqb j c) + b2n (Nat.eqb j d))%nat).
  { intros j Hj. rewrite <- !(nth_pair m) by auto. now rewrite E. }
  pose proof (Q a ltac:(lia)) as Qa. pose proof (Q b ltac:(lia)) as Qb. pose proof (Q c ltac:(lia)) as Qc. pose proof (Q d ltac:(lia)) as Qd.
  unfold b2n in *. rewrite !Nat.eqb_refl in *.
  destruct (Nat.eqb_spec a b), (Nat.eqb_spec a c), (Nat.eqb_spec a d), (Nat.eqb_spec b a), (Nat.eqb_spec b c), (Nat.eqb_spec b d),
    (Nat.eqb_spec c a), (Nat.eqb_spec c b), (Nat.eqb_spec c d), (Nat.eqb_spec d a), (Nat.eqb_spec d b), (Nat.eqb_spec d c); lia.
Qed.

Lemma filter_seq_single : forall n (p : nat -> bool) a, (a < n)%nat -> p a = true ->
  (forall j, (j < n)%nat -> p j = true -> j = a) -> filter p (seq 0 n) = [a].
Proof.
  assert (G : forall n s (p : nat -> bool), (forall j, (s <= j < s + n)%nat -> p j = false) -> filter p (seq s n) = []).
  { induction n; intros s p H; simpl; auto. rewrite H by lia. apply IHn. intros. apply H. lia. }
  assert (F : forall n s (p : nat -> bool) a, (s <= a < s + n)%nat -> p a = true ->
    (forall j, (s <= j < s + n)%nat -> p j = true -> j = a) -> filter p (seq s n) = [a]).
  { induction n; intros s p a H1 H2 H3; [lia|]. simpl. destruct (Nat.eq_dec s a) as [->|N].
    - rewrite H2. f_equal. apply G. intros j Hj. destruct (p j) eqn:E; auto. apply H3 in E; lia.
    - destruct (p s) eqn:E; [apply H3 in E; lia|]. apply IHn; auto; try lia. intros j Hj. apply H3. lia. }
  intros n p a H1 H2 H3. apply F; auto; try lia. intros j Hj. apply H3. lia.
Qed.

Lemma filter_seq_two : forall n (p : nat -> bool) a b, (a < b < n)%nat -> p a = true -> p b = true ->
  (forall j, (j < n)%nat -> p j = true -> j = a \/ j = b) -> filter p (seq 0 n) = [a; b].
Proof.
  intros n p a b H Ha Hb Hp.
  replace n with (b + (n - b))%nat by lia. rewrite seq_app, filter_app.
  rewrite (filter_seq_single b p a); auto; try lia.
  2:{ intros j Hj E. destruct (Hp j ltac:(lia) E); lia. }
  simpl. f_equal. replace (n - b)%nat with (S (n - b - 1)) by lia. simpl. rewrite Hb. f_equal.
  assert (G : forall n s (q : nat -> bool), (forall j, (s <= j < s + n)%nat -> q j = false) -> filter q (seq s n) = []).
  { induction n0; intros s q Hq; simpl; auto. rewrite Hq by lia. apply IHn0. intros. apply Hq. lia. }
  apply G. intros j Hj. destruct (p j) eqn:E; auto. destruct (Hp j ltac:(lia) E); lia.
Qed.

Lemma nonzero_pair : forall m a b, (a <= b < m)%nat ->
  nonzero_locs (pair_index m a b) = if Nat.eqb a b then [a] else [a; b].
Proof.
  intros m a b H. unfold nonzero_locs. rewrite pair_length.
  destruct (Nat.eqb_spec a b) as [->|N].
  - apply filter_seq_single; try lia.
    + rewrite nth_pair by lia. rewrite Nat.eqb_refl. reflexivity.
    + intros j Hj E. rewrite nth_pair in E by lia. unfold b2n in E. destruct (Nat.eqb_spec j b); auto. discriminate.
  - apply filter_seq_two; try lia.
    + rewrite nth_pair by lia. rewrite Nat.eqb_refl. destruct (Nat.eqb a b); reflexivity.
    + rewrite nth_pair by lia. rewrite Nat.eqb_refl. destruct (Nat.eqb b a); reflexivity.
    + intros j Hj E. rewrite nth_pair in E by lia. unfold b2n in E.
      destruct (Nat.eqb_spec j a), (Nat.eqb_spec j b); auto. discriminate.
Qed.

(** ** where the degrees sit *)
Lemma binom_mono : forall n k, (binom n k <= binom (S n) k)%nat.
Proof. intros n [|k]; [now rewrite !binom_0|]. rewrite binom_pascal. lia. Qed.
Lemma binom_mono_le : forall n n' k, (n <= n')%nat -> (binom n k <= binom n' k)%nat.
Proof. intros n n' k H. induction H; auto. etransitivity; [apply IHle|apply binom_mono]. Qed.
Lemma binom_sym1 : forall n, binom (S n) n = S n.
Proof. induction n; auto. rewrite binom_pascal, IHn. rewrite binom_diag. lia. Qed.
Lemma binom_sym2 : forall n, binom (S (S n)) n = binom (S (S n)) 2.
Proof.
  induction n; [reflexivity|]. rewrite (binom_pascal (S (S n)) n), IHn.
  rewrite (binom_pascal (S (S n)) 1), binom_1. rewrite binom_sym1. lia.
Qed.

Lemma index_set_split2 : forall N m L, index_set N m = Ok L -> (1 <= m)%nat -> (2 <= N)%nat ->
  exists L0, L = repeat 0%nat m :: map (unit_index m) (seq 0 m) ++ map (@rev nat) (full_index_set 2 (m - 1)) ++ L0 /\
   length (full_index_set 2 (m - 1)) = binom (m + 1) 2 /\
   (forall l, In l L0 -> (3 <= list_sum l)%nat).
Proof.
  intros N m L HL Hm HN. rewrite (index_set_eq N m Hm L HL).
  destruct N as [|[|N]]; try lia. cbn [seq map]. 
  exists (map (@rev nat) (concat (map (fun i => full_index_set i (m - 1)) (seq 3 N)))).
  cbn [concat]. rewrite !map_app. destruct m as [|m]; [lia|].
  rewrite Nat.sub_succ, Nat.sub_0_r, full_1. split; [|split].
  - f_equal. rewrite (list_sum_0 (rev (repeat 0%nat (S m)))) by (now rewrite list_sum_rev, list_sum_repeat0).
    now rewrite rev_length, repeat_length.
  - rewrite full_length. replace (S m + 1)%nat with (S (S m)) by lia. replace (2 + m)%nat with (S (S m)) by lia. apply binom_sym2.
  - intros l Hl. apply in_map_iff in Hl. destruct Hl as (t & <- & Ht). rewrite list_sum_rev.
    apply in_concat in Ht. destruct Ht as (b & Hb & Ht). apply in_map_iff in Hb. destruct Hb as (i & <- & Hi).
    apply in_seq in Hi. apply full_In in Ht. lia.
Qed.

Lemma index_set_degree2 : forall N m L i, index_set N m = Ok L -> (1 <= m)%nat -> (2 <= N)%nat ->
  (m + 1 <= i < m + 1 + binom (m + 1) 2)%nat -> (i < length L)%nat /\ length (nth i L []) = m /\ list_sum (nth i L []) = 2%nat.
Proof.
  intros N m L i HL Hm HN Hi. destruct (index_set_split2 N m L HL Hm HN) as (L0 & E & E2 & E3).
  assert (Hlen : (i < length L)%nat).
  { rewrite E. cbn [length]. rewrite !app_length, !map_length, seq_length, E2. lia. }
  split; auto. 
  assert (Hin : In (nth i L []) (map (@rev nat) (full_index_set 2 (m - 1)))).
  { rewrite E. destruct i as [|i]; [lia|]. cbn [nth]. rewrite app_nth2 by (rewrite map_length, seq_length; lia).
    rewrite map_length, seq_length. rewrite app_nth1 by (rewrite map_length, E2; lia). apply nth_In. rewrite map_length, E2. lia. }
  apply in_map_iff in Hin. destruct Hin as (t & <- & Ht). rewrite rev_length, list_sum_rev. apply full_In in Ht. lia.
Qed.

(** ** the H loop *)
Definition hcoef (a b : nat) : R := if Nat.eqb a b then 2 else 1.
Definition list_nat_eqb (l l' : list nat) : bool := if list_eq_dec Nat.eq_dec l l' then true else false.
Definition isum (l : list nat) (f : nat -> R) : R := sumr (map f l).

Lemma isum_app : forall l1 l2 f, isum (l1 ++ l2) f = isum l1 f + isum l2 f.
Proof. intros. unfold isum. now rewrite map_app, sumr_app. Qed.
Lemma isum_ext : forall l f g, (forall i, In i l -> f i = g i) -> isum l f = isum l g.
Proof. intros. unfold isum. f_equal. now apply map_ext_in. Qed.
Lemma isum_zero : forall l f, (forall i, In i l -> f i = 0) -> isum l f = 0.
Proof. intros l f H. unfold isum. induction l; simpl; auto. rewrite H by (simpl; auto). rewrite IHl by (intros; apply H; simpl; auto). ring. Qed.
Lemma isum_scal : forall l f c, isum l (fun i => f i * c) = isum l f * c.
Proof. intros. unfold isum. induction l; simpl; [ring|]. rewrite IHl. ring. Qed.
Lemma isum_seq : forall a n f, isum (seq a n) f = sumf n (fun i => f (a + i)%nat).
Proof.
  intros. induction n; [reflexivity|]. rewrite seq_S, isum_app, IHn. cbn [sumf]. unfold isum. simpl. ring.
Qed.
Lemma isum_sumf : forall l n (f : nat -> nat -> R), isum l (fun i => sumf n (fun a => f i a)) = sumf n (fun a => isum l (fun i => f i a)).
Proof.
  intros. unfold isum. induction l; simpl; [now rewrite sumf_0|]. rewrite IHl. now rewrite <- sumf_plus.
Qed.

(** entry (a,b) of H as a sum over the loop's rows *)
Definition h_term (L : list (list nat)) (m : nat) (w : nat -> R) (a b i : nat) : R :=
  if list_nat_eqb (nth i L []) (pair_index m a b) then hcoef a b * w i else 0.

Lemma H_loop_ok : forall L m pw l done H,
  (forall i, In i (done ++ l) -> (i < length L)%nat /\ length (nth i L []) = m /\ list_sum (nth i L []) = 2%nat) ->
  NoDup L -> NoDup (done ++ l) ->
  (forall a b, (a < m)%nat -> (b < m)%nat -> H a b = isum done (h_term L m (fun i => pw.[i, 0%nat]) a b)) ->
  exists H', H_loop L pw H l = Ok H' /\
   forall a b, (a < m)%nat -> (b < m)%nat -> H' a b = isum (done ++ l) (h_term L m (fun i => pw.[i, 0%nat]) a b).
Proof.
  intros L m pw. induction l as [|i l IH]; intros done H HI HL HD HH.
  - exists H. split; auto. now rewrite app_nil_r.
  - cbn [H_loop]. 
    destruct (HI i) as (I1 & I2 & I3); [apply in_or_app; simpl; auto|].
    destruct (degree2_pair _ I3) as (a0 & b0 & Hab & Ei). rewrite I2 in Hab, Ei.
    assert (Hstep : exists H', H_step L pw H i = Ok H' /\ forall a b, (a < m)%nat -> (b < m)%nat ->
        H' a b = H a b + h_term L m (fun i => pw.[i, 0%nat]) a b i).
    { assert (Hold : forall a b, (a < m)%nat -> (b < m)%nat -> pair_index m a b = pair_index m a0 b0 -> H a b = 0).
      { intros a b Ha Hb E. rewrite HH by auto. apply isum_zero. intros k Hk. unfold h_term, list_nat_eqb.
        destruct (list_eq_dec Nat.eq_dec (nth k L []) (pair_index m a b)) as [E2|]; auto. exfalso.
        assert (Hki : k = i).
        { apply (proj1 (NoDup_nth L []) HL); auto.
          - apply HI. apply in_or_app. auto.
          - now rewrite E2, E, Ei. }
        subst k. apply NoDup_remove_2 in HD. apply HD. apply in_or_app. auto. }
      unfold H_step. destruct (Nat.leb_spec (length L) i); [lia|]. rewrite Ei, nonzero_pair by auto.
      assert (Hmatch : forall a b, (a < m)%nat -> (b < m)%nat -> h_term L m (fun i => pw.[i, 0%nat]) a b i =
         if ((Nat.eqb a a0 && Nat.eqb b b0) || (Nat.eqb a b0 && Nat.eqb b a0))%bool then hcoef a b * pw.[i, 0%nat] else 0).
      { intros a b Ha Hb. unfold h_term, list_nat_eqb. rewrite Ei.
        destruct (list_eq_dec Nat.eq_dec (pair_index m a0 b0) (pair_index m a b)) as [E|E].
        - destruct (le_lt_dec a b).
          + apply pair_inj in E; try lia. destruct E as [-> ->]. rewrite !Nat.eqb_refl. reflexivity.
          + rewrite (pair_sym m a b) in E. apply pair_inj in E; try lia. destruct E as [-> ->]. rewrite !Nat.eqb_refl. cbn [andb]. rewrite orb_true_r. reflexivity.
        - destruct (Nat.eqb_spec a a0), (Nat.eqb_spec b b0), (Nat.eqb_spec a b0), (Nat.eqb_spec b a0); cbn [andb orb]; auto; subst; exfalso; apply E; auto; apply pair_sym. }
      destruct (Nat.eqb_spec a0 b0) as [E0|N0].
      - subst b0. eexists. split; [reflexivity|]. intros a b Ha Hb. rewrite Hmatch by auto. unfold upd2, hcoef.
        destruct (Nat.eqb_spec a a0), (Nat.eqb_spec b a0); cbn [andb orb]; try lra. subst a b.
        rewrite Nat.eqb_refl, (Hold a0 a0) by (auto; lia). ring.
      - eexists. split; [reflexivity|]. intros a b Ha Hb. rewrite Hmatch by auto. unfold upd2, hcoef.
        destruct (Nat.eqb_spec a a0), (Nat.eqb_spec b b0), (Nat.eqb_spec a b0), (Nat.eqb_spec b a0); cbn [andb orb]; try lra; try lia;
          subst; destruct (Nat.eqb_spec a0 b0), (Nat.eqb_spec b0 a0); try lia;
          [rewrite (Hold a0 b0) by (auto; lia)|rewrite (Hold b0 a0) by (auto using pair_sym; lia)]; ring. }
    destruct Hstep as (H' & E1 & E2). rewrite E1. cbn [rbind].
    replace (done ++ i :: l) with ((done ++ [i]) ++ l) in * by (now rewrite <- app_assoc).
    apply IH; auto. intros a b Ha Hb. rewrite E2, HH, isum_app by auto. unfold isum at 3. simpl. ring.
Qed.

(** ** the quadratic part of the fitted polynomial *)
Lemma mono_zero_index : forall m x, mono m (repeat 0%nat m) x = 1.
Proof. intros. unfold mono. rewrite (prodf_ext m _ (fun _ => 1)), prodf_one; auto. intros j Hj. now rewrite nth_repeat. Qed.

Lemma prodf_single : forall m k v, (k < m)%nat -> prodf m (fun j => if Nat.eqb j k then v else 1) = v.
Proof.
  intros m k v Hk. rewrite (prodf_split m _ k Hk), Nat.eqb_refl. rewrite (prodf_ext m _ (fun _ => 1)), prodf_one; [ring|].
  intros j Hj. destruct (Nat.eqb j k); auto.
Qed.

Lemma mono_unit : forall m k x, (k < m)%nat -> mono m (unit_index m k) x = x k.
Proof.
  intros m k x Hk. unfold mono. rewrite (prodf_ext m _ (fun j => if Nat.eqb j k then x k else 1)), prodf_single; auto.
  intros j Hj. unfold unit_index. rewrite nth_map_seq by auto. destruct (Nat.eqb_spec j k); subst; simpl; ring.
Qed.

Lemma mono_pair : forall m a b x, (a < m)%nat -> (b < m)%nat -> mono m (pair_index m a b) x = x a * x b.
Proof.
  intros m a b x Ha Hb. unfold mono.
  rewrite (prodf_ext m _ (fun j => (if Nat.eqb j a then x a else 1) * (if Nat.eqb j b then x b else 1))).
  - rewrite prodf_mult, !prodf_single; auto.
  - intros j Hj. rewrite nth_pair by auto. unfold b2n. destruct (Nat.eqb_spec j a), (Nat.eqb_spec j b); subst; simpl; ring.
Qed.

(** one degree-2 row as half the symmetric double sum *)
Lemma quad_row : forall L m w i x, (length (nth i L []) = m)%nat -> list_sum (nth i L []) = 2%nat ->
  / 2 * sumf m (fun a => sumf m (fun b => h_term L m w a b i * x a * x b)) = mono m (nth i L []) x * w i.
Proof.
  intros L m w i x H1 H2. destruct (degree2_pair _ H2) as (a0 & b0 & Hab & Ei). rewrite H1 in Hab, Ei.
  rewrite Ei, mono_pair by lia.
  assert (Hmatch : forall a b, (a < m)%nat -> (b < m)%nat -> h_term L m w a b i =
     if ((Nat.eqb a a0 && Nat.eqb b b0) || (Nat.eqb a b0 && Nat.eqb b a0))%bool then hcoef a b * w i else 0).
  { intros a b Ha Hb. unfold h_term, list_nat_eqb. rewrite Ei.
    destruct (list_eq_dec Nat.eq_dec (pair_index m a0 b0) (pair_index m a b)) as [E|E].
    - destruct (le_lt_dec a b).
      + apply pair_inj in E; try lia. destruct E as [-> ->]. rewrite !Nat.eqb_refl. reflexivity.
      + rewrite (pair_sym m a b) in E. apply pair_inj in E; try lia. destruct E as [-> ->]. rewrite !Nat.eqb_refl. cbn [andb]. rewrite orb_true_r. reflexivity.
    - destruct (Nat.eqb_spec a a0), (Nat.eqb_spec b b0), (Nat.eqb_spec a b0), (Nat.eqb_spec b a0); cbn [andb orb]; auto; subst; exfalso; apply E; auto; apply pair_sym. }
  destruct (Nat.eq_dec a0 b0) as [E0|N0].
  - subst b0.
    rewrite (sumf_ext m _ (fun a => kron_delta a0 a * (2 * w i * x a * x a0))).
    + rewrite (sumf_kd_l m a0 (fun a => 2 * w i * x a * x a0)) by lia. cbv beta. field.
    + intros a Ha. rewrite (sumf_ext m _ (fun b => kron_delta a0 b * (kron_delta a0 a * (2 * w i * x a * x b)))).
      * rewrite (sumf_kd_l m a0 (fun b => kron_delta a0 a * (2 * w i * x a * x b))) by lia. reflexivity.
      * intros b Hb. rewrite Hmatch by auto. unfold kron_delta, hcoef. rewrite (Nat.eqb_sym a0 a), (Nat.eqb_sym a0 b).
        destruct (Nat.eqb_spec a a0), (Nat.eqb_spec b a0); cbn [andb orb]; subst; rewrite ?Nat.eqb_refl; ring.
  - rewrite (sumf_ext m _ (fun a => kron_delta a0 a * (w i * x a * x b0) + kron_delta b0 a * (w i * x a * x a0))).
    + rewrite sumf_plus, (sumf_kd_l m a0 (fun a => w i * x a * x b0)), (sumf_kd_l m b0 (fun a => w i * x a * x a0)) by lia. cbv beta. field.
    + intros a Ha. rewrite (sumf_ext m _ (fun b => kron_delta b0 b * (kron_delta a0 a * (w i * x a * x b)) + kron_delta a0 b * (kron_delta b0 a * (w i * x a * x b)))).
      * rewrite sumf_plus, (sumf_kd_l m b0 (fun b => kron_delta a0 a * (w i * x a * x b))), (sumf_kd_l m a0 (fun b => kron_delta b0 a * (w i * x a * x b))) by lia. reflexivity.
      * intros b Hb. rewrite Hmatch by auto. unfold kron_delta, hcoef.
        rewrite (Nat.eqb_sym a0 a), (Nat.eqb_sym a0 b), (Nat.eqb_sym b0 a), (Nat.eqb_sym b0 b).
        destruct (Nat.eqb_spec a a0), (Nat.eqb_spec b b0), (Nat.eqb_spec a b0), (Nat.eqb_spec b a0); cbn [andb orb]; try lia; subst; try ring;
          destruct (Nat.eqb_spec a0 b0), (Nat.eqb_spec b0 a0); try lia; ring.
Qed.

Lemma process_io_eq : forall A (X f : nd A) M m, shape X = [M; m] -> shape f = [M; 1%nat] -> process_inputs_outputs X f = Ok (X, f, M, m).
Proof.
  intros A X f M m HX Hf. unfold process_inputs_outputs. rewrite (process_inputs_eq _ X M m HX). cbn [rbind]. rewrite Hf, Nat.eqb_refl. cbn [negb].
  cbn. rewrite <- Hf, reshape_id. reflexivity.
Qed.

Section Train.
  Variable lstsq : nd R -> nd R -> res (nd R).
  Hypothesis HL : lstsq_contract lstsq.

  Definition wts_ok (weights : option (nd R)) (M : nat) : Prop :=
    match weights with None => True | Some w => shape w = [M; 1%nat] end.
  Definition wt (weights : option (nd R)) (i : nat) : R :=
    match weights with None => 1 | Some w => w.[i, 0%nat] end.

  (** everything a successful training establishes *)
  Record trained (N : nat) (X f : nd R) (weights : option (nd R)) (M m : nat) (L : list (list nat)) (s : poly) : Prop := {
    t_N : pa_N s = N;
    t_p : (length L <= M)%nat;
    t_w : shape (pa_weights s) = [length L; 1%nat];
    t_min : lsq_min M (length L) (fun r c => wt weights r * mono m (nth c L []) (fun j => X.[r, j]))
              (fun r => wt weights r * f.[r, 0%nat]) (fun c => (pa_weights s).[c, 0%nat]);
    t_gs : shape (pa_g s) = [m; 1%nat];
    t_g : forall k, (k < m)%nat -> (pa_g s).[k, 0%nat] = (pa_weights s).[(1 + k)%nat, 0%nat];
    t_H : (2 <= N)%nat -> exists H, pa_H s = Some H /\ shape H = [m; m] /\
       forall a b, (a < m)%nat -> (b < m)%nat ->
         H.[a, b] = sumf (binom (m + 1) 2) (fun i => h_term L m (fun i => (pa_weights s).[i, 0%nat]) a b (m + 1 + i));
    t_H1 : (N < 2)%nat -> pa_H s = None;
    t_R : pa_Rsqr s = xsub (Fin 1) (xdiv
        (Fin (rss M (length L) (fun r c => wt weights r * mono m (nth c L []) (fun j => X.[r, j]))
              (fun r => wt weights r * f.[r, 0%nat]) (fun c => (pa_weights s).[c, 0%nat])))
        (Fin (INR M * var_col (mk2 M 1 (fun r _ => wt weights r * f.[r, 0%nat])) M)))
  }.

  Lemma var_col_ext : forall f g M, (forall i, (i < M)%nat -> f.[i, 0%nat] = g.[i, 0%nat]) -> var_col f M = var_col g M.
  Proof.
    intros f g M H. unfold var_col, sum_col. f_equal. rewrite (sumf_ext M (fun i => f.[i, 0%nat]) (fun i => g.[i, 0%nat])) by auto.
    apply sumf_ext. intros i Hi. now rewrite H.
  Qed.

  Lemma poly_train_inv : forall N X f weights M m, shape X = [M; m] -> shape f = [M; 1%nat] -> (1 <= m)%nat -> (1 <= N)%nat ->
    wts_ok weights M ->
    exists L, index_set N m = Ok L /\
    ((M < length L)%nat -> exists e, poly_train lstsq N X f weights = Err e) /\
    (forall s, poly_train lstsq N X f weights = Ok s -> trained N X f weights M m L s) /\
    ((length L <= M)%nat -> lstsq_total lstsq -> exists s, poly_train lstsq N X f weights = Ok s).
  Proof.
    intros N X f weights M m HX Hf Hm HN Hw.
    destruct (polynomial_bases_ok X N M m HX Hm) as (L & EL & EB). exists L. split; auto.
    assert (LL : length L = binom (N + m) m) by (eapply index_set_length; eauto).
    assert (Hp1 : (m + 1 <= length L)%nat).
    { rewrite LL. apply Nat.le_trans with (binom (1 + m) m); [simpl (1 + m)%nat; rewrite binom_sym1; lia|apply binom_mono_le; lia]. }
    set (B0 := mk2 M (length L) (fun r i => mono m (nth i L []) (fun j => X.[r, j]))) in *.
    (* the weighted system *)
    assert (HW : exists B fw, match weights with None => Ok (B0, f) | Some w => do B' <- bcast2 Rmult w B0; do f' <- bcast2 Rmult w f; Ok (B', f') end = Ok (B, fw)
       /\ shape B = [M; length L] /\ shape fw = [M; 1%nat] /\
       (forall r c, (r < M)%nat -> (c < length L)%nat -> B.[r, c] = wt weights r * mono m (nth c L []) (fun j => X.[r, j])) /\
       (forall r, (r < M)%nat -> fw.[r, 0%nat] = wt weights r * f.[r, 0%nat])).
    { destruct weights as [w|].
      - simpl in Hw. destruct (bcast2_col _ _ _ Rmult w B0 M (length L) Hw eq_refl) as (B & E1 & E2 & E3).
        destruct (bcast2_col _ _ _ Rmult w f M 1 Hw Hf) as (fw & E4 & E5 & E6).
        exists B, fw. split; [rewrite E1; cbn [rbind]; rewrite E4; reflexivity|]. split; [auto|]. split; [auto|]. split.
        + intros r c Hr Hc. now rewrite E3 by auto.
        + intros r Hr. now rewrite E6 by (auto; lia).
      - exists B0, f. split; [reflexivity|]. split; [reflexivity|]. split; [auto|]. unfold wt, B0. split; intros; rewrite ?at_mk2; ring. }
    destruct HW as (B & fw & EW & SB & SF & VB & VF).
    assert (Etr : poly_train lstsq N X f weights =
      if Nat.ltb M (length L) then Err (Exc "Not enough points to fit response surface"%string) else
      do pw <- lstsq B fw;
      do r <- mdot B pw;
      do d <- bcast2 Rminus r fw;
      let Rsqr := xsub (Fin 1) (xdiv (Fin (sumf (nrows d) (fun i => d.[i, 0%nat] * d.[i, 0%nat])))
                                   (Fin (INR M * var_col fw (nrows fw)))) in
      do pw' <- reshape [length L; 1%nat] pw;
      do g <- reshape [m; 1%nat] (rows_slice pw 1 (m + 1));
      do H <- (if Nat.ltb 1 N
             then do h <- H_loop L pw (fun _ _ => 0) (seq (m + 1) (binom (m + 1) 2)); Ok (Some (mk2 m m h))
             else Ok None);
      Ok {| pa_N := N; pa_X := X; pa_f := fw; pa_weights := pw'; pa_Rsqr := Rsqr; pa_g := g; pa_H := H |}).
    { unfold poly_train. rewrite (process_io_eq _ X f M m HX Hf). cbn [rbind]. rewrite EB. cbn [rbind].
      rewrite <- LL. destruct (Nat.ltb M (length L)); auto. change (ncols B0) with (length L). rewrite EW. reflexivity. }
    (* the steps after lstsq always succeed *)
    assert (Hrest : forall pw, shape pw = [length L; 1%nat] -> exists d H,
       (exists r, mdot B pw = Ok r /\ bcast2 Rminus r fw = Ok d) /\
       (shape d = [M; 1%nat] /\ forall r, (r < M)%nat -> d.[r, 0%nat] = resid (length L) (fun r c => wt weights r * mono m (nth c L []) (fun j => X.[r, j])) (fun r => wt weights r * f.[r, 0%nat]) (fun c => pw.[c, 0%nat]) r) /\
       reshape [length L; 1%nat] pw = Ok pw /\
       reshape [m; 1%nat] (rows_slice pw 1 (m + 1)) = Ok (rows_slice pw 1 (m + 1)) /\
       (if Nat.ltb 1 N then do h <- H_loop L pw (fun _ _ => 0) (seq (m + 1) (binom (m + 1) 2)); Ok (Some (mk2 m m h)) else Ok None) = Ok H /\
       ((N < 2)%nat -> H = None) /\
       ((2 <= N)%nat -> exists H0, H = Some H0 /\ shape H0 = [m; m] /\ forall a b, (a < m)%nat -> (b < m)%nat ->
         H0.[a, b] = sumf (binom (m + 1) 2) (fun i => h_term L m (fun i => pw.[i, 0%nat]) a b (m + 1 + i)))).
    { intros pw Hpw.
      destruct (bcast2_same _ _ _ Rminus (mk2 M 1 (fun i j => sumf (length L) (fun l => B.[i, l] * pw.[l, j]))) fw M 1 eq_refl SF) as (d & D1 & D2 & D3).
      exists d.
      assert (HH : exists H, (if Nat.ltb 1 N then do h <- H_loop L pw (fun _ _ => 0) (seq (m + 1) (binom (m + 1) 2)); Ok (Some (mk2 m m h)) else Ok None) = Ok H /\
         ((N < 2)%nat -> H = None) /\
         ((2 <= N)%nat -> exists H0, H = Some H0 /\ shape H0 = [m; m] /\ forall a b, (a < m)%nat -> (b < m)%nat ->
         H0.[a, b] = sumf (binom (m + 1) 2) (fun i => h_term L m (fun i => pw.[i, 0%nat]) a b (m + 1 + i)))).
      { destruct (Nat.ltb_spec 1 N) as [HN2|HN2].
        - destruct (H_loop_ok L m pw (seq (m + 1) (binom (m + 1) 2)) [] (fun _ _ => 0)) as (h & E1 & E2).
          + intros i Hi. simpl in Hi. apply in_seq in Hi. apply (index_set_degree2 N m L i EL Hm); lia.
          + exact (index_set_NoDup N m Hm L EL).
          + apply seq_NoDup.
          + intros. reflexivity.
          + rewrite E1. cbn [rbind]. eexists. split; [reflexivity|]. split; [lia|]. intros _.
            eexists. split; [reflexivity|]. split; [reflexivity|]. intros a b Ha Hb. rewrite at_mk2, E2 by auto. simpl app. now rewrite isum_seq.
        - eexists. split; [reflexivity|]. split; auto. lia. }
      destruct HH as (H & HH). exists H. split; [|split; [|split; [|split]]]; try tauto.
      - eexists. split; [apply (mdot_ok B pw M (length L) 1 SB Hpw)|exact D1].
      - split; auto. intros r Hr. rewrite D3 by (auto; lia). rewrite at_mk2, VF by auto. unfold resid. f_equal.
        apply sumf_ext. intros c Hc. now rewrite VB.
      - rewrite <- Hpw. apply reshape_id.
      - assert (E : shape (rows_slice pw 1 (m + 1)) = [m; 1%nat]).
        { unfold rows_slice. rewrite shape_mk2, (nrows_shape2 _ _ _ _ Hpw), (ncols_shape2 _ _ _ _ Hpw). f_equal. lia. }
        rewrite <- E at 1. apply reshape_id. }
    rewrite Etr. split; [|split].
    - intros Hlt. destruct (Nat.ltb_spec M (length L)); [|lia]. eauto.
    - intros s Hs. destruct (Nat.ltb_spec M (length L)); [discriminate|].
      apply rbind_ok in Hs. destruct Hs as (pw & Epw & Hs).
      destruct (HL M (length L) B fw pw SB SF Epw) as [Spw Mpw].
      destruct (Hrest pw Spw) as (d & Hh & (r & R1 & R2) & (R3 & R4) & R5 & R6 & R7 & R8 & R9).
      rewrite R1 in Hs. cbn [rbind] in Hs. rewrite R2 in Hs. cbn [rbind] in Hs. cbv zeta in Hs. rewrite R5 in Hs. cbn [rbind] in Hs.
      rewrite R6 in Hs. cbn [rbind] in Hs. rewrite R7 in Hs. cbn [rbind] in Hs. injection Hs as <-.
      constructor; cbn [pa_N pa_weights pa_g pa_H pa_Rsqr]; auto.
      + intros v. specialize (Mpw v). unfold rss, resid in *.
        assert (Q : forall u, sumf M (fun i => (sumf (length L) (fun j => B.[i, j] * u j) - fw.[i, 0%nat]) * (sumf (length L) (fun j => B.[i, j] * u j) - fw.[i, 0%nat])) =
           sumf M (fun i => (sumf (length L) (fun j => wt weights i * mono m (nth j L []) (fun j0 => X.[i, j0]) * u j) - wt weights i * f.[i, 0%nat]) * (sumf (length L) (fun j => wt weights i * mono m (nth j L []) (fun j0 => X.[i, j0]) * u j) - wt weights i * f.[i, 0%nat]))).
        { intros u. apply sumf_ext. intros i Hi. rewrite VF by auto.
          rewrite (sumf_ext (length L) (fun j => B.[i, j] * u j) (fun j => wt weights i * mono m (nth j L []) (fun j0 => X.[i, j0]) * u j)); auto.
          intros j Hj. now rewrite VB. }
        rewrite !Q in Mpw. exact Mpw.
      + unfold rows_slice. rewrite shape_mk2, (nrows_shape2 _ _ _ _ Spw), (ncols_shape2 _ _ _ _ Spw). f_equal. lia.
      + rewrite (nrows_shape2 _ _ _ _ R3), (nrows_shape2 _ _ _ _ SF).
        rewrite (sumf_ext M (fun i => d.[i, 0%nat] * d.[i, 0%nat]) (fun i => resid (length L) (fun r c => wt weights r * mono m (nth c L []) (fun j => X.[r, j])) (fun r => wt weights r * f.[r, 0%nat]) (fun c => pw.[c, 0%nat]) i * resid (length L) (fun r c => wt weights r * mono m (nth c L []) (fun j => X.[r, j])) (fun r => wt weights r * f.[r, 0%nat]) (fun c => pw.[c, 0%nat]) i)) by (intros i Hi; now rewrite R4).
        rewrite (var_col_ext fw (mk2 M 1 (fun r _ => wt weights r * f.[r, 0%nat])) M) by (intros i Hi; rewrite VF, at_mk2; auto).
        reflexivity.
    - intros Hle HT. destruct (Nat.ltb_spec M (length L)); [lia|].
      destruct (HT M (length L) B fw SB SF) as (pw & Epw). rewrite Epw. cbn [rbind].
      destruct (HL M (length L) B fw pw SB SF Epw) as [Spw Mpw].
      destruct (Hrest pw Spw) as (d & Hh & (r & R1 & R2) & (R3 & R4) & R5 & R6 & R7 & R8 & R9).
      rewrite R1. cbn [rbind]. rewrite R2. cbn [rbind]. cbv zeta. rewrite R5. cbn [rbind].
      rewrite R6. cbn [rbind]. rewrite R7. cbn [rbind]. eauto.
  Qed.
End Train.
