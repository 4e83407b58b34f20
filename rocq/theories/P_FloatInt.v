(** Lemmas about M_FloatInt: the groups, the weights and the sums *)
From Coq Require Import Reals Lra Lia List Arith ZArith String Bool Permutation.
From Verif Require Import Prelude Py NumArr M_Misc M_SimRunners M_RespSurf M_Gradients M_Subspaces M_Quadrature M_QP M_Domains M_Designs M_ASRS M_Integrals M_Float M_FloatInt
  P_Misc P_CondExp P_Float P_FloatCode.
Import ListNotations.
Open Scope R_scope.

Lemma filter_all : forall (A : Type) (p : A -> bool) l, (forall x, In x l -> p x = true) -> filter p l = l.
Proof. induction l as [|a l IH]; intros H; simpl; auto. rewrite (H a) by (simpl; auto). f_equal. apply IH. intros; apply H; simpl; auto. Qed.
Lemma filter_none : forall (A : Type) (p : A -> bool) l, (forall x, In x l -> p x = false) -> filter p l = [].
Proof. induction l as [|a l IH]; intros H; simpl; auto. rewrite (H a) by (simpl; auto). apply IH. intros; apply H; simpl; auto. Qed.

Lemma filter_block : forall (g : nat -> nat) q K i, (forall i l, (i < q)%nat -> (l < K)%nat -> g (i * K + l)%nat = i) -> (i < q)%nat ->
  filter (fun k => Nat.eqb (g k) i) (seq 0 (q * K)) = seq (i * K) K.
Proof.
  induction q as [|q IH]; intros K i H Hi; [lia|].
  replace (S q * K)%nat with (q * K + K)%nat by lia. rewrite seq_app, filter_app. cbn [Nat.add].
  destruct (Nat.eq_dec i q) as [->|Ne].
  - rewrite filter_none, filter_all; [reflexivity| |].
    + intros x Hx. apply in_seq in Hx. replace x with (q * K + (x - q * K))%nat by lia. rewrite H by lia. apply Nat.eqb_refl.
    + intros x Hx. apply in_seq in Hx. assert (K <> 0)%nat by (intros ->; lia).
      rewrite (Nat.div_mod x K) by lia. rewrite (Nat.mul_comm K). assert (x / K < q)%nat by (apply Nat.div_lt_upper_bound; lia).
      rewrite H by (try lia; apply Nat.mod_upper_bound; lia). apply Nat.eqb_neq. lia.
  - rewrite IH by (auto; lia). rewrite filter_none; [apply app_nil_r|].
    intros x Hx. apply in_seq in Hx. replace x with (q * K + (x - q * K))%nat by lia. rewrite H by lia. apply Nat.eqb_neq. lia.
Qed.

Lemma select_maps : forall (f : nat -> R) (g : nat -> nat) i l, select (map f l) (map g l) i = map f (filter (fun k => Nat.eqb (g k) i) l).
Proof.
  intros f g i. unfold select. induction l as [|a l IH]; simpl; auto. destruct (Nat.eqb (g a) i); simpl; [f_equal|]; exact IH.
Qed.

Lemma map_seq_off : forall (A : Type) (f : nat -> A) a n, map f (seq a n) = map (fun l => f (a + l)%nat) (seq 0 n).
Proof. induction n as [|n IH]; [reflexivity|]. rewrite !seq_S, !map_app, IH. reflexivity. Qed.
Lemma nth_map_seq_x : forall (A : Type) (g : nat -> A) n k d, (k < n)%nat -> nth k (map g (seq 0 n)) d = g k.
Proof. intros A g n k d H. rewrite (nth_indep _ d (g 0%nat)) by (rewrite map_length, seq_length; lia). now rewrite map_nth, seq_nth by lia. Qed.

(** the values of group i *)
Definition block (A : nd R) (K i : nat) : list R := map (fun l => A.[(i * K + l)%nat, 0%nat]) (seq 0 K).

Lemma block_length : forall A K i, List.length (block A K i) = K.
Proof. intros. unfold block. now rewrite map_length, seq_length. Qed.
Lemma block_sum : forall A K i, sumr (block A K i) = sumf K (fun l => A.[(i * K + l)%nat, 0%nat]).
Proof. intros. rewrite sumr_nth, block_length. apply sumf_ext. intros l Hl. unfold block. now rewrite nth_map_seq. Qed.

Lemma cond_exp_fl_design : forall F ord A ind q K, shape A = [(q * K)%nat; 1%nat] -> shape ind = [(q * K)%nat; 1%nat] ->
  (forall i l, (i < q)%nat -> (l < K)%nat -> ind.[(i * K + l)%nat, 0%nat] = INR i) -> (0 < K)%nat -> (0 < q)%nat ->
  exists E V, cond_exp_fl F ord A ind = Ok (E, V) /\ shape E = [q; 1%nat] /\ shape V = [q; 1%nat] /\
  (forall i, (i < q)%nat -> E.[i, 0%nat] = mean_fl F ord (block A K i) /\ V.[i, 0%nat] = var_fl F ord (block A K i)).
Proof.
  intros F ord A ind q K SA SI HI HK HQ. unfold cond_exp_fl. rewrite (nrows_shape2 _ _ _ _ SA), (nrows_shape2 _ _ _ _ SI).
  set (g := fun k => to_nat (ind.[k, 0%nat])). set (f := fun k => A.[k, 0%nat]).
  assert (Hg : forall i l, (i < q)%nat -> (l < K)%nat -> g (i * K + l)%nat = i) by (intros; unfold g; rewrite HI by auto; apply to_nat_INR).
  unfold conditional_expectations_fl. set (il := map g (seq 0 (q * K))). set (fl := map f (seq 0 (q * K))).
  assert (IN : forall i, In i il <-> (i < q)%nat).
  { intros i. unfold il. rewrite in_map_iff. split.
    - intros (k & <- & Hk). apply in_seq in Hk. rewrite (Nat.div_mod k K) by lia. rewrite (Nat.mul_comm K).
      assert (k / K < q)%nat by (apply Nat.div_lt_upper_bound; lia). rewrite Hg; auto. apply Nat.mod_upper_bound; lia.
    - intros Hi. exists (i * K + 0)%nat. split; [now apply Hg|]. apply in_seq. nia. }
  assert (NE : np_amax_nat il = Ok (q - 1)%nat).
  { assert (MX : list_max il = (q - 1)%nat) by (apply list_max_is; auto; intros; now apply IN).
    destruct il as [|a il'] eqn:E; [exfalso; apply (proj2 (IN 0%nat) HQ)|]. change (np_amax_nat (a :: il')) with (Ok (list_max (a :: il'))). now rewrite MX. }
  rewrite NE. cbn [rbind]. unfold il at 1, fl at 1. rewrite !map_length, Nat.eqb_refl. cbn [negb rbind].
  replace (S (q - 1)) with q by lia.
  assert (SB : forall i, (i < q)%nat -> select fl il i = block A K i).
  { intros i Hi. unfold fl, il. rewrite select_maps, (filter_block g q K i Hg Hi). unfold block.
    apply map_seq_off. }
  assert (NB : forall i, block A K i <> []) by (intros i E; assert (L := block_length A K i); rewrite E in L; simpl in L; lia).
  set (Ef := map _ (seq 0 q)). set (Vf := map _ (seq 0 q)).
  assert (LE : List.length Ef = q) by (unfold Ef; now rewrite map_length, seq_length).
  assert (LV : List.length Vf = q) by (unfold Vf; now rewrite map_length, seq_length).
  assert (NEf : forall i, (i < q)%nat -> nth i Ef NaN = Fin (mean_fl F ord (block A K i))).
  { intros i Hi. unfold Ef. rewrite (nth_map_seq_x xr (fun k => match select fl il k with [] => NaN | _ => Fin (mean_fl F ord (select fl il k)) end)) by auto.
    rewrite SB by auto. specialize (NB i). destruct (block A K i); [contradiction|reflexivity]. }
  assert (NVf : forall i, (i < q)%nat -> nth i Vf NaN = Fin (var_fl F ord (block A K i))).
  { intros i Hi. unfold Vf. rewrite (nth_map_seq_x xr (fun k => match select fl il k with [] => NaN | _ => Fin (var_fl F ord (select fl il k)) end)) by auto.
    rewrite SB by auto. specialize (NB i). destruct (block A K i); [contradiction|reflexivity]. }
  destruct (mapr_finite Ef) as (E & E1 & E2 & E3). { intros i Hi. rewrite LE in Hi. rewrite NEf by auto. eauto. }
  destruct (mapr_finite Vf) as (V & V1 & V2 & V3). { intros i Hi. rewrite LV in Hi. rewrite NVf by auto. eauto. }
  rewrite E1. cbn [rbind]. rewrite V1. cbn [rbind]. rewrite E2, LE, V2, LV. eexists _, _. split; [reflexivity|]. split; [reflexivity|]. split; [reflexivity|].
  intros i Hi. rewrite !at_mk2. assert (X1 := E3 i ltac:(lia)). assert (X2 := V3 i ltac:(lia)). rewrite NEf in X1 by auto. rewrite NVf in X2 by auto.
  injection X1 as <-. injection X2 as <-. auto.
Qed.

(** ** Rounding errors *)
Lemma dfl_nonneg : forall F, valid F -> forall t x w, (forall i, In i (dleaves t) -> 0 <= x i * w i) -> 0 <= dfl F t x w.
Proof.
  intros F V. induction t as [i|t IH i|l IHl r IHr]; intros x w H; simpl; apply rnd_nonneg; auto.
  - apply H; simpl; auto.
  - apply Rplus_le_le_0_compat; [apply IH|]; intros; apply H; simpl; rewrite in_app_iff; simpl; auto.
  - apply Rplus_le_le_0_compat; [apply IHl|apply IHr]; intros; apply H; simpl; rewrite in_app_iff; auto.
Qed.

(** [dord q] multiplies and adds every pair of entries once *)
Definition dots_all (dord : nat -> dtree) : Prop := forall n, (0 < n)%nat -> Permutation (dleaves (dord n)) (seq 0 n).

Lemma dot_fl_ok : forall F dord a b q, shape a = [q; 1%nat] -> shape b = [q; 1%nat] -> (0 < q)%nat ->
  dot_fl F dord a b = Ok (dfl F (dord q) (fun i => a.[i, 0%nat]) (fun i => b.[i, 0%nat])).
Proof.
  intros F dord a b q Sa Sb Hq. unfold dot_fl. rewrite (ncols_shape2 _ _ _ _ Sa), (ncols_shape2 _ _ _ _ Sb), (nrows_shape2 _ _ _ _ Sa), (nrows_shape2 _ _ _ _ Sb), Nat.eqb_refl.
  cbn [andb]. rewrite Nat.eqb_refl. cbn [negb]. destruct q; [lia|reflexivity].
Qed.

(** a weight that is divided by K, multiplied by K and averaged over K copies *)
Lemma weight_err : forall F ord K y, valid F -> adds_all ord -> (0 < K)%nat ->
  let v := rnd F (rnd F (y / INR K) * INR K) in
  let g := (1 + ulp1 F) ^ S (sdepth (ord K)) in
  Rabs (mean_fl F ord (repeat v K) - y) <= ((1 + ulp1 F) ^ (sdepth (ord K) + 3) - 1) * Rabs y + (g * ((1 + ulp1 F) * INR K + 1) + 1) * eta F.
Proof.
  intros F ord K y V Ho HK v g. assert (U := ulp1_pos F). assert (H0 := eta_pos F). set (u := ulp1 F) in *. set (h := eta F) in *.
  assert (PK : 0 < INR K) by now apply lt_0_INR.
  assert (E1 := rnd_err F (y / INR K)). assert (E2 := rnd_err F (rnd F (y / INR K) * INR K)). fold u h in E1, E2. fold v in E2.
  set (x := rnd F (y / INR K)) in *.
  assert (Q : Rabs (y / INR K) * INR K = Rabs y).
  { unfold Rdiv. rewrite Rabs_mult, Rabs_inv, (Rabs_pos_eq (INR K)) by lra. field. lra. }
  assert (A1 : Rabs (x * INR K - y) <= u * Rabs y + INR K * h).
  { replace (x * INR K - y) with ((x - y / INR K) * INR K) by (field; lra). rewrite Rabs_mult, (Rabs_pos_eq (INR K)) by lra.
    apply Rle_trans with ((u * Rabs (y / INR K) + h) * INR K); [apply Rmult_le_compat_r; lra|]. rewrite <- Q. right. ring. }
  assert (A2 : Rabs (x * INR K) <= (1 + u) * Rabs y + INR K * h).
  { replace (x * INR K) with (y + (x * INR K - y)) by ring. apply Rle_trans with (1 := Rabs_triang _ _). lra. }
  assert (A3 : Rabs (v - y) <= ((1 + u) * (1 + u) - 1) * Rabs y + ((1 + u) * INR K + 1) * h).
  { replace (v - y) with ((v - x * INR K) + (x * INR K - y)) by ring. apply Rle_trans with (1 := Rabs_triang _ _).
    assert (u * Rabs (x * INR K) <= u * ((1 + u) * Rabs y + INR K * h)) by (apply Rmult_le_compat_l; lra). lra. }
  assert (Lr : repeat v K <> []) by (destruct K; [lia|discriminate]).
  assert (Fr : forall z, In z (repeat v K) -> fmt F z) by (intros z Hz; apply repeat_spec in Hz; subst z; apply rnd_fmt; auto).
  assert (E3 := mean_err F V ord (repeat v K) Ho Lr Fr). cbv zeta in E3. rewrite repeat_length in E3. fold u h in E3. fold g in E3.
  assert (SR : forall c n, sumr (repeat c n) = INR n * c).
  { intros c. induction n as [|n IH]; [simpl; ring|]. cbn [repeat sumr]. rewrite IH, (S_INR n). ring. }
  assert (MR : forall c n, map Rabs (repeat c n) = repeat (Rabs c) n) by (clear; induction n; simpl; congruence).
  rewrite MR, !SR in E3. replace (INR K * v / INR K) with v in E3 by (field; lra). replace (INR K * Rabs v / INR K) with (Rabs v) in E3 by (field; lra).
  assert (Gg : 1 <= g) by apply (G1 F).
  assert (A4 : Rabs v <= (1 + u) * (1 + u) * Rabs y + ((1 + u) * INR K + 1) * h).
  { replace v with (y + (v - y)) at 1 by ring. apply Rle_trans with (1 := Rabs_triang _ _). lra. }
  replace (mean_fl F ord (repeat v K) - y) with ((mean_fl F ord (repeat v K) - v) + (v - y)) by ring.
  apply Rle_trans with (1 := Rabs_triang _ _).
  assert (A5 : (g - 1) * Rabs v <= (g - 1) * ((1 + u) * (1 + u) * Rabs y + ((1 + u) * INR K + 1) * h)) by (apply Rmult_le_compat_l; lra).
  replace (sdepth (ord K) + 3)%nat with (S (S (S (sdepth (ord K))))) by lia.
  replace ((1 + u) ^ S (S (S (sdepth (ord K))))) with ((1 + u) * (1 + u) * g) by (unfold g; simpl; ring). lra.
Qed.

(** two approximate factors *)
Lemma prod_err : forall e m a w y g1 g3 h b, Rabs (e - m) <= (g1 - 1) * a + h -> Rabs (w - y) <= (g3 - 1) * Rabs y + b -> Rabs m <= a -> 1 <= g1 -> 1 <= g3 -> 0 <= h -> 0 <= b ->
  Rabs (e * w - m * y) <= (g1 * g3 - 1) * (a * Rabs y) + (g1 * a * b + g3 * Rabs y * h + h * b) /\
  Rabs (e * w) <= g1 * g3 * (a * Rabs y) + (g1 * a * b + g3 * Rabs y * h + h * b).
Proof.
  intros e m a w y g1 g3 h b He Hw Hm G1 G3 H0 B0.
  assert (Y0 := Rabs_pos y). assert (M0 := Rabs_pos m).
  assert (W : Rabs w <= g3 * Rabs y + b) by (replace w with (y + (w - y)) by ring; apply Rle_trans with (1 := Rabs_triang _ _); lra).
  assert (E : Rabs e <= g1 * a + h) by (replace e with (m + (e - m)) by ring; apply Rle_trans with (1 := Rabs_triang _ _); lra).
  assert (P1 : Rabs (e - m) * Rabs w <= ((g1 - 1) * a + h) * (g3 * Rabs y + b)) by (apply Rmult_le_compat; auto; apply Rabs_pos).
  assert (P2 : Rabs m * Rabs (w - y) <= a * ((g3 - 1) * Rabs y + b)) by (apply Rmult_le_compat; auto; apply Rabs_pos).
  split.
  - replace (e * w - m * y) with ((e - m) * w + m * (w - y)) by ring. apply Rle_trans with (1 := Rabs_triang _ _). rewrite (Rabs_mult (e - m)), (Rabs_mult m).
    eapply Rle_trans; [apply (Rplus_le_compat _ _ _ _ P1 P2)|]. right. ring.
  - rewrite Rabs_mult. apply Rle_trans with ((g1 * a + h) * (g3 * Rabs y + b)); [apply Rmult_le_compat; auto; apply Rabs_pos|]. right. ring.
Qed.
