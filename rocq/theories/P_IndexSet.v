(** Proofs about index_set *)
From Coq Require Import Reals Lra Lia List Arith ZArith Bool Sorted.
From Verif Require Import Prelude Py NumArr M_Misc M_RespSurf Sorting.
Import ListNotations.
Local Open Scope nat_scope.

(** ** binomial coefficients *)
Lemma binom_0 : forall n, binom n 0 = 1. Proof. destruct n; reflexivity. Qed.
Lemma binom_gt : forall n k, n < k -> binom n k = 0.
Proof. induction n; intros [|k] H; simpl; try lia. rewrite !IHn by lia. reflexivity. Qed.
Lemma binom_diag : forall n, binom n n = 1.
Proof. induction n; simpl; auto. rewrite IHn, binom_gt by lia. reflexivity. Qed.
Lemma binom_pascal : forall n k, binom (S n) (S k) = binom n k + binom n (S k).
Proof. reflexivity. Qed.
Lemma binom_1 : forall n, binom n 1 = n.
Proof. induction n; auto. rewrite binom_pascal, binom_0, IHn. reflexivity. Qed.

(** the same numbers as the standard library's factorial definition *)
Lemma binom_C : forall n k, k <= n -> INR (binom n k) = Binomial.C n k.
Proof.
  induction n; intros k H.
  - assert (k = 0) by lia. subst. simpl. unfold Binomial.C. simpl. field.
  - destruct k as [|k].
    + rewrite binom_0. unfold Binomial.C. rewrite Nat.sub_0_r. simpl (fact 0). simpl (INR 1). field. apply INR_fact_neq_0.
    + rewrite binom_pascal, plus_INR. destruct (Nat.eq_dec k n) as [->|Hk].
      * rewrite binom_diag, binom_gt by lia. unfold Binomial.C. rewrite Nat.sub_diag. simpl (fact 0). simpl (INR 1). simpl (INR 0). field. apply INR_fact_neq_0.
      * rewrite !IHn by lia. apply Binomial.pascal. lia.
Qed.

Lemma list_sum_cons : forall a l, list_sum (a :: l) = a + list_sum l. Proof. reflexivity. Qed.

Lemma hockey : forall n d, list_sum (map (fun i => binom (n - i + d) d) (seq 0 (n + 1))) = binom (n + S d) (S d).
Proof.
  intros n d. induction n as [|n IH].
  - cbn [Nat.add seq map]. rewrite list_sum_cons. simpl (0 - 0). rewrite !binom_diag. reflexivity.
  - rewrite Nat.add_1_r. change (seq 0 (S (S n))) with (0 :: seq 1 (S n)). cbn [map]. rewrite list_sum_cons, <- seq_shift, map_map.
    replace (map (fun x => binom (S n - S x + d) d) (seq 0 (S n))) with (map (fun i => binom (n - i + d) d) (seq 0 (n + 1))).
    + rewrite IH. replace (S n - 0 + d) with (n + S d) by lia. reflexivity.
    + rewrite Nat.add_1_r. apply map_ext. intros i. reflexivity.
Qed.

(** ** the degree-n slice *)
Lemma length_concat_sum : forall A (l : list (list A)), length (concat l) = list_sum (map (@length A) l).
Proof. induction l; simpl; auto. now rewrite app_length, IHl. Qed.

Lemma full_In : forall d n l, In l (full_index_set n d) <-> length l = S d /\ list_sum l = n.
Proof.
  induction d as [|d IH]; intros n l.
  - simpl. split.
    + intros [<-|[]]. simpl. lia.
    + intros [H1 H2]. destruct l as [|a [|b l]]; try discriminate. simpl in H2. left. f_equal. lia.
  - cbn [full_index_set]. rewrite in_concat. split.
    + intros (b & Hb & Hl). apply in_map_iff in Hb. destruct Hb as (i & <- & Hi). apply in_seq in Hi.
      apply in_map_iff in Hl. destruct Hl as (t & <- & Ht). apply IH in Ht. destruct Ht as [Ht1 Ht2].
      simpl. change (fold_right Nat.add 0 t) with (list_sum t). lia.
    + intros [H1 H2]. destruct l as [|a t]; [discriminate|]. simpl in H1, H2. change (fold_right Nat.add 0 t) with (list_sum t) in H2.
      exists (map (cons a) (full_index_set (n - a) d)). split.
      * apply in_map_iff. exists a. split; auto. apply in_seq. lia.
      * apply in_map. apply IH. lia.
Qed.

Lemma NoDup_concat_map : forall A B (f : A -> list B) l, NoDup l -> (forall x, In x l -> NoDup (f x)) ->
  (forall x y z, In x l -> In y l -> x <> y -> In z (f x) -> ~ In z (f y)) -> NoDup (concat (map f l)).
Proof.
  intros A B f. induction l as [|x l IH]; intros ND H1 H2; simpl; [constructor|].
  inversion ND; subst.
  assert (Happ : forall (l1 l2 : list B), NoDup l1 -> NoDup l2 -> (forall z, In z l1 -> ~ In z l2) -> NoDup (l1 ++ l2)).
  { induction l1 as [|a l1 IHl]; intros l2 N1 N2 N3; simpl; auto. inversion N1; subst. constructor.
    - rewrite in_app_iff. intros [Q|Q]; [contradiction|]. apply (N3 a); simpl; auto.
    - apply IHl; auto. intros z Hz. apply N3. simpl; auto. }
  apply Happ.
  - apply H1. simpl; auto.
  - apply IH; auto.
    + intros y Hy. apply H1. simpl; auto.
    + intros a b z Ha Hb. apply H2; simpl; auto.
  - intros z Hz Hc. apply in_concat in Hc. destruct Hc as (b & Hb & Hzb). apply in_map_iff in Hb. destruct Hb as (y & <- & Hy).
    apply (H2 x y z); simpl; auto. intros ->. contradiction.
Qed.

Lemma NoDup_map_inj : forall A B (f : A -> B) l, (forall x y, f x = f y -> x = y) -> NoDup l -> NoDup (map f l).
Proof.
  intros A B f l Hf H. induction H; simpl; constructor; auto.
  rewrite in_map_iff. intros (y & E & Hy). apply Hf in E. subst. contradiction.
Qed.

Lemma full_NoDup : forall d n, NoDup (full_index_set n d).
Proof.
  induction d as [|d IH]; intros n; cbn [full_index_set]; [repeat constructor; simpl; tauto|].
  apply NoDup_concat_map.
  - apply seq_NoDup.
  - intros i _. apply NoDup_map_inj; auto. intros x y E. now inversion E.
  - intros i j z _ _ Hij Hi Hj. apply in_map_iff in Hi, Hj. destruct Hi as (? & <- & _). destruct Hj as (? & E & _). inversion E; congruence.
Qed.

Lemma full_length : forall d n, length (full_index_set n d) = binom (n + d) d.
Proof.
  induction d as [|d IH]; intros n; cbn [full_index_set].
  - rewrite binom_0. reflexivity.
  - rewrite length_concat_sum, map_map.
    rewrite (map_ext _ (fun i => binom (n - i + d) d)).
    + apply hockey.
    + intros i. rewrite map_length. apply IH.
Qed.

(** ** index_set *)
Definition unit_index (d k : nat) : list nat := map (fun j => if Nat.eqb j k then 1 else 0) (seq 0 d).

Lemma full_0 : forall d, full_index_set 0 d = [repeat 0 (S d)].
Proof. induction d as [|d IH]; [reflexivity|]. cbn [full_index_set]. simpl seq. cbn [map concat]. simpl (0 - 0). rewrite IH. reflexivity. Qed.

Lemma full_1 : forall d, map (@rev nat) (full_index_set 1 d) = map (unit_index (S d)) (seq 0 (S d)).
Proof.
  induction d as [|d IH]; [reflexivity|].
  assert (E : full_index_set 1 (S d) = map (cons 0) (full_index_set 1 d) ++ map (cons 1) (full_index_set 0 d)).
  { cbn [full_index_set]. simpl seq. cbn [map concat]. now rewrite app_nil_r. }
  rewrite E, full_0. rewrite map_app, map_map. cbn [map].
  rewrite (seq_S (S d) 0), map_app. f_equal.
  - transitivity (map (fun u => u ++ [0]) (map (@rev nat) (full_index_set 1 d))).
    + rewrite map_map. apply map_ext. intros l. reflexivity.
    + rewrite IH, map_map. apply map_ext_in. intros k Hk. apply in_seq in Hk.
      unfold unit_index. rewrite (seq_S (S d) 0), map_app. cbn [map]. simpl (0 + S d).
      destruct (Nat.eqb_spec (S d) k); [lia|]. reflexivity.
  - cbn [map]. f_equal. unfold unit_index. rewrite (seq_S (S d) 0), map_app. cbn [map]. simpl (0 + S d).
    rewrite Nat.eqb_refl. change (rev (1 :: repeat 0 (S d))) with (rev (repeat 0 (S d)) ++ [1]). f_equal.
    rewrite <- (rev_involutive (map _ (seq 0 (S d)))). f_equal.
    assert (Q : forall n a k, a + n <= k -> map (fun j => if Nat.eqb j k then 1 else 0) (seq a n) = repeat 0 n).
    { induction n; intros a k H; simpl; auto. destruct (Nat.eqb_spec a k); [lia|]. f_equal. apply IHn. lia. }
    rewrite Q by lia. clear. induction (S d); simpl; auto. rewrite <- IHn.
    clear. assert (forall n, repeat 0 n ++ [0] = 0 :: repeat 0 n).
    { induction n0; simpl; auto. now rewrite IHn0. }
    now rewrite H.
Qed.

Lemma list_sum_rev : forall l, list_sum (rev l) = list_sum l.
Proof.
  induction l; simpl; auto. unfold list_sum in *. rewrite fold_right_app. simpl.
  assert (H : forall l a, fold_right Nat.add a l = fold_right Nat.add 0 l + a) by (induction l0; simpl; intros; auto; rewrite IHl0; lia).
  rewrite H, IHl. lia.
Qed.
Lemma list_sum_repeat0 : forall n, list_sum (repeat 0 n) = 0.
Proof. induction n; simpl; auto. Qed.

Lemma list_sum_0 : forall l, list_sum l = 0 -> l = repeat 0 (length l).
Proof. induction l; simpl; intros H; auto. change (fold_right Nat.add 0 l) with (list_sum l) in H. rewrite <- IHl by lia. f_equal. lia. Qed.

Section IS.
  Variables n d : nat.
  Hypothesis Hd : 1 <= d.

  Lemma index_set_ok : exists L, index_set n d = Ok L.
  Proof. destruct d; [lia|]. simpl. eauto. Qed.

  Lemma index_set_eq : forall L, index_set n d = Ok L ->
    L = map (@rev nat) (repeat 0 d :: concat (map (fun i => full_index_set i (d - 1)) (seq 1 n))).
  Proof. intros L H. destruct d as [|d']; [lia|]. unfold index_set in H. injection H as <-. rewrite Nat.sub_succ, Nat.sub_0_r. reflexivity. Qed.

  Lemma index_set_In : forall L l, index_set n d = Ok L -> (In l L <-> length l = d /\ list_sum l <= n).
  Proof.
    intros L l H. rewrite (index_set_eq L H). rewrite in_map_iff. split.
    - intros (t & <- & Ht). rewrite rev_length, list_sum_rev. destruct Ht as [<-|Ht].
      + rewrite repeat_length, list_sum_repeat0. lia.
      + apply in_concat in Ht. destruct Ht as (b & Hb & Ht). apply in_map_iff in Hb. destruct Hb as (i & <- & Hi).
        apply in_seq in Hi. apply full_In in Ht. lia.
    - intros [H1 H2]. exists (rev l). split; [apply rev_involutive|].
      destruct (Nat.eq_dec (list_sum l) 0) as [E|E].
      + left. rewrite (list_sum_0 (rev l)) by (rewrite list_sum_rev; auto). now rewrite rev_length, H1.
      + right. apply in_concat. exists (full_index_set (list_sum l) (d - 1)). split.
        * apply in_map_iff. exists (list_sum l). split; auto. apply in_seq. lia.
        * apply full_In. rewrite rev_length, list_sum_rev. lia.
  Qed.

  Lemma index_set_NoDup : forall L, index_set n d = Ok L -> NoDup L.
  Proof.
    intros L H. rewrite (index_set_eq L H). apply NoDup_map_inj.
    - intros x y E. rewrite <- (rev_involutive x), E, rev_involutive. reflexivity.
    - constructor.
      + intros Hc. apply in_concat in Hc. destruct Hc as (b & Hb & Ht). apply in_map_iff in Hb. destruct Hb as (i & <- & Hi).
        apply in_seq in Hi. apply full_In in Ht. rewrite list_sum_repeat0 in Ht. lia.
      + apply NoDup_concat_map.
        * apply seq_NoDup.
        * intros i _. apply full_NoDup.
        * intros i j z _ _ Hij Hi Hj. apply full_In in Hi, Hj. lia.
  Qed.

  Lemma index_set_length : forall L, index_set n d = Ok L -> length L = binom (n + d) d.
  Proof.
    intros L H. rewrite (index_set_eq L H). rewrite map_length. cbn [length].
    rewrite length_concat_sum, map_map. clear H L.
    destruct d as [|d']; [lia|]. rewrite Nat.sub_succ, Nat.sub_0_r.
    rewrite (map_ext _ (fun i => binom (i + d') d')) by (intros; apply full_length).
    clear Hd. induction n as [|k IH].
    - simpl seq. cbn [map list_sum fold_right]. now rewrite Nat.add_0_l, binom_diag.
    - rewrite seq_S, map_app. cbn [map]. rewrite list_sum_app. cbn [list_sum fold_right].
      replace (S k + S d') with (S (k + S d')) by lia. rewrite binom_pascal.
      replace (1 + k + d') with (k + S d') by lia. rewrite <- IH. lia.
  Qed.

  Lemma index_set_sorted : forall L, index_set n d = Ok L ->
    StronglySorted (fun a b => list_sum a <= list_sum b) L.
  Proof.
    intros L H. rewrite (index_set_eq L H). clear H L.
    assert (Hmap : forall l, StronglySorted (fun a b => list_sum a <= list_sum b) l -> StronglySorted (fun a b => list_sum a <= list_sum b) (map (@rev nat) l)).
    { induction 1; simpl; constructor; auto. rewrite Forall_forall in *. intros z Hz. apply in_map_iff in Hz. destruct Hz as (y & <- & Hy).
      rewrite !list_sum_rev. auto. }
    apply Hmap. constructor.
    - generalize (d - 1). intros d1. generalize 1. induction n as [|k IH]; intros s; cbn [seq map concat]; [constructor|].
      assert (Happ : forall l1 l2, (forall x, In x l1 -> list_sum x = s) -> (forall x, In x l2 -> s <= list_sum x) ->
         StronglySorted (fun a b => list_sum a <= list_sum b) l2 -> StronglySorted (fun a b => list_sum a <= list_sum b) (l1 ++ l2)).
      { induction l1 as [|a l1 IHl]; intros l2 A1 A2 A3; simpl; auto. constructor.
        - apply IHl; auto. intros x Hx. apply A1. simpl; auto.
        - rewrite Forall_forall. intros x Hx. rewrite (A1 a) by (simpl; auto). apply in_app_or in Hx. destruct Hx as [Hx|Hx]; auto.
          rewrite (A1 x) by (simpl; auto). lia. }
      apply Happ; auto.
      + intros x Hx. now apply full_In in Hx.
      + intros x Hx. apply in_concat in Hx. destruct Hx as (b & Hb & Ht). apply in_map_iff in Hb. destruct Hb as (i & <- & Hi).
        apply in_seq in Hi. apply full_In in Ht. lia.
    - rewrite Forall_forall. intros x _. rewrite list_sum_repeat0. lia.
  Qed.

  Lemma index_set_row0 : forall L, index_set n d = Ok L -> nth 0 L [] = repeat 0 d.
  Proof.
    intros L H. rewrite (index_set_eq L H). cbn [map nth].
    rewrite (list_sum_0 (rev (repeat 0 d))) by (now rewrite list_sum_rev, list_sum_repeat0).
    now rewrite rev_length, repeat_length.
  Qed.

  Lemma index_set_unit : forall L k, index_set n d = Ok L -> 1 <= n -> k < d -> nth (1 + k) L [] = unit_index d k.
  Proof.
    intros L k H Hn Hk. rewrite (index_set_eq L H). cbn [map]. simpl (1 + k). cbn [nth].
    destruct n as [|n']; [lia|]. cbn [seq map concat]. rewrite map_app.
    destruct d as [|d']; [lia|]. rewrite Nat.sub_succ, Nat.sub_0_r, full_1.
    rewrite app_nth1 by (now rewrite map_length, seq_length).
    rewrite nth_map_seq by auto. reflexivity.
  Qed.
End IS.
