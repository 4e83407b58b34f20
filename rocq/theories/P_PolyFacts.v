(** Consequences of PolynomialApproximation.train: exactness, gradient and
    Hessian at the origin, R^2. *)
From Coq Require Import String Reals Lra Lia List Arith ZArith Bool Sorted.
From Verif Require Import Prelude Py NumArr LinAlg Lsq M_Misc M_RespSurf Sorting P_Misc P_IndexSet P_Poly P_PolyTrain.
Import ListNotations.
Open Scope R_scope.

(** ** values and derivatives of monomials at the origin *)
Lemma mono_at_0 : forall m al, length al = m -> mono m al (fun _ => 0) = if Nat.eqb (list_sum al) 0 then 1 else 0.
Proof.
  intros m al H. destruct (Nat.eqb_spec (list_sum al) 0) as [E|E].
  - apply list_sum_0 in E. rewrite E, H. apply mono_zero_index.
  - destruct (list_sum_pos_nth al) as (j & H1 & H2); [lia|]. apply (prodf_zero m _ j); [lia|]. apply pow_i. auto.
Qed.

Lemma sum1_unit : forall al, list_sum al = 1%nat -> exists k, (k < length al)%nat /\ al = unit_index (length al) k.
Proof.
  intros al H. destruct (list_sum_pos_nth al) as (k & H1 & H2); [lia|].
  pose proof (list_sum_dec_at al k H1 H2) as H3. assert (Z : list_sum (dec_at k al) = 0%nat) by lia.
  apply list_sum_0 in Z. rewrite length_dec_at in Z. exists k. split; auto.
  apply (nth_ext _ _ 0%nat 0%nat); [unfold unit_index; now rewrite map_length, seq_length|].
  intros j Hj. unfold unit_index. rewrite nth_map_seq by auto.
  pose proof (nth_dec_at al k j) as E. rewrite Z, nth_repeat in E. destruct (Nat.eqb_spec j k); subst; simpl; lia.
Qed.
Lemma nth_unit : forall m k j, (j < m)%nat -> nth j (unit_index m k) 0%nat = if Nat.eqb j k then 1%nat else 0%nat.
Proof. intros. unfold unit_index. rewrite nth_map_seq by auto. destruct (Nat.eqb_spec j k); subst; auto. Qed.
Lemma unit_length : forall m k, length (unit_index m k) = m.
Proof. intros. unfold unit_index. now rewrite map_length, seq_length. Qed.

Lemma dmono_at_0 : forall m al k, length al = m -> (k < m)%nat ->
  dmono m al k (fun _ => 0) = if list_nat_eqb al (unit_index m k) then 1 else 0.
Proof.
  intros m al k H Hk. unfold dmono, list_nat_eqb. destruct (list_eq_dec Nat.eq_dec al (unit_index m k)) as [E|E].
  - rewrite E, nth_unit, Nat.eqb_refl by auto. cbn [Nat.eqb]. rewrite mono_at_0 by (rewrite length_dec_at; apply unit_length).
    assert (Z : list_sum (dec_at k (unit_index m k)) = 0%nat).
    { replace (dec_at k (unit_index m k)) with (repeat 0%nat m); [apply list_sum_repeat0|].
      apply (nth_ext _ _ 0%nat 0%nat); [rewrite repeat_length, length_dec_at; symmetry; apply unit_length|].
      rewrite repeat_length. intros j Hj. rewrite nth_repeat, nth_dec_at, nth_unit by auto. destruct (Nat.eqb j k); auto. }
    rewrite Z. simpl. ring.
  - destruct (Nat.eqb_spec (nth k al 0%nat) 0) as [Z|Z]; auto.
    rewrite mono_at_0 by (now rewrite length_dec_at). destruct (Nat.eqb_spec (list_sum (dec_at k al)) 0) as [Z2|Z2]; [|ring].
    exfalso. apply E.
    apply list_sum_0 in Z2. rewrite length_dec_at in Z2. apply (nth_ext _ _ 0%nat 0%nat); [rewrite unit_length; auto|].
    intros j Hj. rewrite nth_unit by lia. pose proof (nth_dec_at al k j) as Q. rewrite Z2, nth_repeat in Q.
    destruct (Nat.eqb_spec j k); [|lia]. subst j. 
    lia.
Qed.

Definition ddmono (m : nat) (al : list nat) (a b : nat) (x : nat -> R) : R :=
  if Nat.eqb (nth a al 0%nat) 0 then 0 else dmono m (dec_at a al) b x * INR (nth a al 0%nat).

Lemma dmono_deriv : forall m al a b x, (b < m)%nat ->
  derivable_pt_lim (fun t => dmono m al a (set_at x b t)) (x b) (ddmono m al a b x).
Proof.
  intros m al a b x Hb. unfold dmono, ddmono. destruct (Nat.eqb (nth a al 0%nat) 0).
  - apply derivable_pt_lim_const.
  - eapply derivable_pt_lim_ext; [|apply deriv_scal; apply (mono_deriv m (dec_at a al) b x Hb)].
    intros t. cbv beta. ring.
Qed.

Lemma dec_unit_pair : forall m al a b, length al = m -> (a < m)%nat -> (b < m)%nat -> nth a al 0%nat <> 0%nat ->
  (dec_at a al = unit_index m b <-> al = pair_index m a b).
Proof.
  intros m al a b H Ha Hb Hz. split; intros E.
  - apply (nth_ext _ _ 0%nat 0%nat); [now rewrite pair_length|]. intros j Hj. rewrite nth_pair by lia.
    pose proof (nth_dec_at al a j) as Q. rewrite E, nth_unit in Q by lia. unfold b2n.
    destruct (Nat.eqb_spec j a), (Nat.eqb_spec j b); subst; lia.
  - apply (nth_ext _ _ 0%nat 0%nat); [now rewrite length_dec_at, unit_length|]. intros j Hj. rewrite length_dec_at in Hj.
    rewrite nth_dec_at, nth_unit by lia. rewrite E, nth_pair by lia. unfold b2n.
    destruct (Nat.eqb_spec j a), (Nat.eqb_spec j b); subst; lia.
Qed.

Lemma ddmono_at_0 : forall m al a b, length al = m -> (a < m)%nat -> (b < m)%nat ->
  ddmono m al a b (fun _ => 0) = if list_nat_eqb al (pair_index m a b) then hcoef a b else 0.
Proof.
  intros m al a b H Ha Hb. unfold ddmono. rewrite dmono_at_0 by (rewrite ?length_dec_at; auto). unfold list_nat_eqb.
  destruct (Nat.eqb_spec (nth a al 0%nat) 0) as [Z|Z].
  - destruct (list_eq_dec Nat.eq_dec al (pair_index m a b)) as [E|E]; auto. exfalso.
    rewrite E, nth_pair, Nat.eqb_refl in Z by auto. simpl in Z. lia.
  - pose proof (dec_unit_pair m al a b H Ha Hb Z) as D.
    destruct (list_eq_dec Nat.eq_dec (dec_at a al) (unit_index m b)) as [E|E], (list_eq_dec Nat.eq_dec al (pair_index m a b)) as [E2|E2]; try tauto; try ring.
    rewrite E2, nth_pair, Nat.eqb_refl by auto. unfold hcoef, b2n. destruct (Nat.eqb a b); simpl; ring.
Qed.

Lemma poly_deval_deriv : forall m L w a b x, (b < m)%nat ->
  derivable_pt_lim (fun t => poly_deval m L w a (set_at x b t)) (x b)
     (sumf (length L) (fun c => ddmono m (nth c L []) a b x * w c)).
Proof.
  intros m L w a b x Hb. apply (deriv_sumf (length L) (fun c t => dmono m (nth c L []) a (set_at x b t) * w c)).
  intros c Hc. apply deriv_scal, dmono_deriv; auto.
Qed.

(** ** degrees by position *)
Section Rows.
  Variables (N m : nat) (L : list (list nat)).
  Hypotheses (HL : index_set N m = Ok L) (Hm : (1 <= m)%nat).

  Lemma row_length : forall c, (c < length L)%nat -> length (nth c L []) = m.
  Proof. intros c Hc. apply (nth_In L []) in Hc. apply (index_set_In N m Hm L _ HL) in Hc. tauto. Qed.

  Lemma gradient_at_0 : forall w k, (k < m)%nat -> (1 <= N)%nat ->
    poly_deval m L w k (fun _ => 0) = w (1 + k)%nat.
  Proof.
    intros w k Hk HN. unfold poly_deval.
    assert (Hu : (1 + k < length L)%nat).
    { rewrite (index_set_length N m Hm L HL). apply Nat.lt_le_trans with (binom (1 + m) m); [simpl (1 + m)%nat; rewrite binom_sym1; lia|apply binom_mono_le; lia]. }
    rewrite (sumf_ext _ _ (fun c => kron_delta (1 + k) c * w c)).
    - apply (sumf_kd_l (length L) (1 + k) w Hu).
    - intros c Hc. f_equal. rewrite dmono_at_0 by (auto using row_length). unfold list_nat_eqb, kron_delta.
      destruct (list_eq_dec Nat.eq_dec (nth c L []) (unit_index m k)) as [E|E], (Nat.eqb_spec (1 + k) c) as [E2|E2]; auto; exfalso.
      + apply E2. apply (proj1 (NoDup_nth L []) (index_set_NoDup N m Hm L HL)); auto.
        rewrite E. apply (index_set_unit N m Hm L _ HL); auto.
      + apply E. subst c. apply (index_set_unit N m Hm L _ HL); auto.
  Qed.

  Lemma rows_rest : (2 <= N)%nat -> forall c, (m + 1 + binom (m + 1) 2 <= c < length L)%nat -> (3 <= list_sum (nth c L []))%nat.
  Proof.
    intros HN c Hc. destruct (index_set_split2 N m L HL Hm HN) as (L0 & E & E2 & E3). apply E3.
    rewrite E in Hc |- *. cbn [length] in Hc. rewrite !app_length, !map_length, seq_length, E2 in Hc.
    destruct c as [|c]; [lia|]. cbn [nth]. rewrite app_nth2 by (rewrite map_length, seq_length; lia).
    rewrite map_length, seq_length. rewrite app_nth2 by (rewrite map_length, E2; lia). rewrite map_length, E2. apply nth_In. lia.
  Qed.
  Lemma rows_first : forall c, (c < m + 1)%nat -> (c < length L)%nat -> (list_sum (nth c L []) <= 1)%nat.
  Proof.
    intros c Hc Hl. destruct c as [|k].
    - rewrite (index_set_row0 N m Hm L HL). rewrite list_sum_repeat0. lia.
    - destruct (le_lt_dec 1 N) as [HN|HN].
      + change (S k) with (1 + k)%nat. rewrite (index_set_unit N m Hm L _ HL) by lia.
        clear - Hc. assert (E : list_sum (unit_index m k) = 1%nat).
        { pose proof (list_sum_dec_at (unit_index m k) k) as Q. rewrite unit_length in Q. rewrite nth_unit, Nat.eqb_refl in Q by lia.
          rewrite Q by lia. f_equal. replace (dec_at k (unit_index m k)) with (repeat 0%nat m); [apply list_sum_repeat0|].
          apply (nth_ext _ _ 0%nat 0%nat); [rewrite repeat_length, length_dec_at; symmetry; apply unit_length|].
          rewrite repeat_length. intros j Hj. rewrite nth_repeat, nth_dec_at, nth_unit by auto. destruct (Nat.eqb j k); auto. }
        lia.
      + apply (nth_In L []) in Hl. apply (index_set_In N m Hm L _ HL) in Hl. lia.
  Qed.
  Lemma rows_enough : (2 <= N)%nat -> (m + 1 + binom (m + 1) 2 <= length L)%nat.
  Proof.
    intros HN. destruct (index_set_split2 N m L HL Hm HN) as (L0 & E & E2 & E3).
    rewrite E. cbn [length]. rewrite !app_length, !map_length, seq_length, E2. lia.
  Qed.

  Lemma pair_sum : forall a b, (a < m)%nat -> (b < m)%nat -> list_sum (pair_index m a b) = 2%nat.
  Proof.
    intros a b Ha Hb.
    rewrite (list_sum_dec_at (pair_index m a b) a) by (rewrite ?pair_length, ?nth_pair, ?Nat.eqb_refl; auto; simpl; lia).
    assert (E : dec_at a (pair_index m a b) = unit_index m b).
    { apply (dec_unit_pair m); auto using pair_length. rewrite nth_pair, Nat.eqb_refl by auto. simpl. lia. }
    rewrite E. rewrite (list_sum_dec_at (unit_index m b) b) by (rewrite ?unit_length, ?nth_unit, ?Nat.eqb_refl; auto).
    replace (dec_at b (unit_index m b)) with (repeat 0%nat m); [now rewrite list_sum_repeat0|].
    apply (nth_ext _ _ 0%nat 0%nat); [rewrite repeat_length, length_dec_at; symmetry; apply unit_length|].
    rewrite repeat_length. intros j Hj. rewrite nth_repeat, nth_dec_at, nth_unit by auto. destruct (Nat.eqb j b); auto.
  Qed.

  Lemma hessian_at_0 : forall w a b, (2 <= N)%nat -> (a < m)%nat -> (b < m)%nat ->
    sumf (length L) (fun c => ddmono m (nth c L []) a b (fun _ => 0) * w c)
    = sumf (binom (m + 1) 2) (fun i => h_term L m w a b (m + 1 + i)).
  Proof.
    intros w a b HN Ha Hb. pose proof (rows_enough HN) as HE.
    replace (length L) with ((m + 1) + (binom (m + 1) 2 + (length L - (m + 1) - binom (m + 1) 2)))%nat by lia.
    rewrite (sumf_split (m + 1)), (sumf_split (binom (m + 1) 2)).
    assert (T : forall c, (c < length L)%nat -> ddmono m (nth c L []) a b (fun _ => 0) * w c = h_term L m w a b c).
    { intros c Hc. rewrite ddmono_at_0 by (auto using row_length). unfold h_term. destruct (list_nat_eqb _ _); ring. }
    assert (Z : forall c, (c < length L)%nat -> list_sum (nth c L []) <> 2%nat -> h_term L m w a b c = 0).
    { intros c Hc H. unfold h_term, list_nat_eqb. destruct (list_eq_dec Nat.eq_dec (nth c L []) (pair_index m a b)) as [E|E]; auto.
      exfalso. apply H. rewrite E. now apply pair_sum. }
    rewrite (sumf_zero (m + 1)).
    - rewrite (sumf_ext (binom (m + 1) 2) _ (fun i => h_term L m w a b (m + 1 + i))) by (intros i Hi; apply T; lia).
      rewrite (sumf_zero (length L - (m + 1) - binom (m + 1) 2)); [ring|].
      intros i Hi. rewrite T by lia. apply Z; [lia|]. pose proof (rows_rest HN (m + 1 + (binom (m + 1) 2 + i))%nat ltac:(lia)). lia.
    - intros i Hi. rewrite T by lia. apply Z; [lia|]. pose proof (rows_first i Hi ltac:(lia)). lia.
  Qed.

  (** Taylor form *)
  Lemma poly_eval_taylor : forall w x, (2 <= N)%nat ->
    poly_eval m L w x = w 0%nat + sumf m (fun k => w (1 + k)%nat * x k)
      + / 2 * sumf m (fun a => sumf m (fun b => sumf (binom (m + 1) 2) (fun i => h_term L m w a b (m + 1 + i)) * x a * x b))
      + sumf (length L - (m + 1 + binom (m + 1) 2)) (fun i =>
          mono m (nth (m + 1 + binom (m + 1) 2 + i) L []) x * w (m + 1 + binom (m + 1) 2 + i)%nat).
  Proof.
    intros w x HN. pose proof (rows_enough HN) as HE. unfold poly_eval.
    replace (length L) with (m + 1 + binom (m + 1) 2 + (length L - (m + 1 + binom (m + 1) 2)))%nat at 1 by lia.
    rewrite (sumf_split (m + 1 + binom (m + 1) 2)). f_equal. rewrite (sumf_split (m + 1)). replace (sumf (m + 1)) with (sumf (1 + m)) by (f_equal; lia). rewrite (sumf_split 1). cbn [sumf].
    rewrite Rplus_0_l. f_equal; [f_equal|].
    - rewrite (index_set_row0 N m Hm L HL), mono_zero_index. ring.
    - apply sumf_ext. intros k Hk. rewrite (index_set_unit N m Hm L _ HL) by lia. rewrite mono_unit by auto. ring.
    - rewrite (sumf_ext (binom (m + 1) 2) _ (fun i => / 2 * sumf m (fun a => sumf m (fun b => h_term L m w a b (m + 1 + i) * x a * x b)))).
      + rewrite sumf_scal_l. f_equal. rewrite sumf_swap. apply sumf_ext. intros a Ha. rewrite sumf_swap. apply sumf_ext. intros b Hb.
        rewrite <- !sumf_scal_r. reflexivity.
      + intros i Hi. destruct (index_set_degree2 N m L (m + 1 + i) HL Hm HN ltac:(lia)) as (I1 & I2 & I3). now rewrite quad_row.
  Qed.
  
  Lemma length2 : N = 2%nat -> length L = (m + 1 + binom (m + 1) 2)%nat.
  Proof.
    intros E. rewrite (index_set_length N m Hm L HL), E. destruct m as [|m']; [lia|].
    replace (2 + S m')%nat with (S (S (S m'))) by lia. rewrite binom_sym2. rewrite (binom_pascal (S (S m')) 1), binom_1.
    replace (S m' + 1)%nat with (S (S m')) by lia. lia.
  Qed.
  Lemma poly_eval_linear : forall w x, N = 1%nat -> poly_eval m L w x = w 0%nat + sumf m (fun k => w (1 + k)%nat * x k).
  Proof.
    intros w x E. unfold poly_eval. assert (EL : length L = (1 + m)%nat).
    { rewrite (index_set_length N m Hm L HL), E. simpl (1 + m)%nat. now rewrite binom_sym1. }
    rewrite EL, (sumf_split 1). cbn [sumf]. rewrite Rplus_0_l. f_equal.
    - rewrite (index_set_row0 N m Hm L HL), mono_zero_index. ring.
    - apply sumf_ext. intros k Hk. rewrite (index_set_unit N m Hm L _ HL) by lia. rewrite mono_unit by auto. ring.
  Qed.

  (** a polynomial given by terms a_t prod_j x_j^(e t j) of degree <= N *)
  Definition terms_eval (T : nat) (a : nat -> R) (e : nat -> nat -> nat) (x : nat -> R) : R :=
    sumf T (fun t => a t * prodf m (fun j => x j ^ e t j)).
  Definition nsum (k : nat) (f : nat -> nat) : nat := list_sum (map f (seq 0 k)).

  Lemma terms_collect : forall T a e, (forall t, (t < T)%nat -> (nsum m (e t) <= N)%nat) ->
    exists w, forall x, terms_eval T a e x = poly_eval m L w x.
  Proof.
    intros T a e He.
    exists (fun c => sumf T (fun t => if list_nat_eqb (nth c L []) (map (e t) (seq 0 m)) then a t else 0)).
    intros x. unfold terms_eval, poly_eval.
    rewrite (sumf_ext (length L) _ (fun c => sumf T (fun t => mono m (nth c L []) x * (if list_nat_eqb (nth c L []) (map (e t) (seq 0 m)) then a t else 0)))).
    2: { intros c Hc. now rewrite <- sumf_scal_l. }
    rewrite sumf_swap. apply sumf_ext. intros t Ht. set (al := map (e t) (seq 0 m)).
    assert (Hin : In al L).
    { apply (index_set_In N m Hm L _ HL). split; [unfold al; now rewrite map_length, seq_length|]. apply He; auto. }
    destruct (In_nth L al [] Hin) as (c & Hc & Ec).
    rewrite (sumf_ext (length L) _ (fun c' => kron_delta c c' * (mono m al x * a t))).
    - rewrite (sumf_kd_l (length L) c (fun _ => mono m al x * a t) Hc). rewrite Rmult_comm. f_equal.
      apply prodf_ext. intros j Hj. unfold al. now rewrite nth_map_seq.
    - intros c' Hc'. unfold list_nat_eqb, kron_delta.
      destruct (list_eq_dec Nat.eq_dec (nth c' L []) al) as [E|E], (Nat.eqb_spec c c') as [E2|E2]; try ring.
      + rewrite E; ring.
      + exfalso. apply E2. apply (proj1 (NoDup_nth L []) (index_set_NoDup N m Hm L HL)); auto. congruence.
      + subst c'. congruence.
  Qed.
End Rows.

(** ** reading predictions at one point *)
Definition pt (m : nat) (x : nat -> R) : nd R := mk2 1 m (fun _ j => x j).
Definition poly_value (s : poly) (m : nat) (x : nat -> R) : R :=
  match poly_predict s (pt m x) false with Ok (F, _) => F.[0%nat, 0%nat] | Err _ => 0 end.
Definition poly_slope (s : poly) (m k : nat) (x : nat -> R) : R :=
  match poly_predict s (pt m x) true with Ok (_, Some D) => D.[0%nat, k] | _ => 0 end.

Lemma poly_value_ok : forall s m x L, (1 <= m)%nat -> shape (pa_weights s) = [binom (pa_N s + m) m; 1%nat] ->
  index_set (pa_N s) m = Ok L -> poly_value s m x = poly_eval m L (fun c => (pa_weights s).[c, 0%nat]) x.
Proof.
  intros s m x L Hm Hw HL. unfold poly_value.
  destruct (poly_predict_ok s (pt m x) 1 m false eq_refl Hm Hw) as (L' & F & E1 & E2 & E3 & E4). rewrite HL in E1. injection E1 as <-.
  rewrite E4, E3 by lia. reflexivity.
Qed.
Lemma poly_slope_ok : forall s m k x L, (1 <= m)%nat -> shape (pa_weights s) = [binom (pa_N s + m) m; 1%nat] ->
  index_set (pa_N s) m = Ok L -> poly_slope s m k x = poly_deval m L (fun c => (pa_weights s).[c, 0%nat]) k x.
Proof.
  intros s m k x L Hm Hw HL. unfold poly_slope.
  destruct (poly_predict_ok s (pt m x) 1 m true eq_refl Hm Hw) as (L' & F & E1 & E2 & E3 & E4). rewrite HL in E1. injection E1 as <-.
  rewrite E4. reflexivity.
Qed.

Lemma poly_eval_w : forall m L w w' x, (forall c, (c < length L)%nat -> w c = w' c) -> poly_eval m L w x = poly_eval m L w' x.
Proof. intros. unfold poly_eval. apply sumf_ext. intros c Hc. now rewrite H. Qed.

Lemma full_rank_weights : forall p q A w, full_rank p q A -> (forall i, (i < p)%nat -> w i <> 0) ->
  full_rank p q (fun i j => w i * A i j).
Proof.
  intros p q A w H Hw x Hx. apply H. intros i Hi. specialize (Hx i Hi).
  rewrite (sumf_ext q _ (fun j => w i * (A i j * x j))) in Hx by (intros; ring). rewrite sumf_scal_l in Hx.
  apply Rmult_integral in Hx. destruct Hx; auto. exfalso. apply (Hw i Hi); auto.
Qed.

Section Consequences.
  Variable lstsq : nd R -> nd R -> res (nd R).
  Hypothesis HL : lstsq_contract lstsq.
  Variables (N : nat) (X f : nd R) (weights : option (nd R)) (M m : nat) (L : list (list nat)) (s : poly).
  Hypotheses (Hm : (1 <= m)%nat) (HN : (1 <= N)%nat) (EL : index_set N m = Ok L) (T : trained N X f weights M m L s).

  Lemma trained_shape : shape (pa_weights s) = [binom (pa_N s + m) m; 1%nat].
  Proof. rewrite (t_N _ _ _ _ _ _ _ _ T), <- (index_set_length N m Hm L EL). apply (t_w _ _ _ _ _ _ _ _ T). Qed.
  Lemma trained_idx : index_set (pa_N s) m = Ok L.
  Proof. now rewrite (t_N _ _ _ _ _ _ _ _ T). Qed.

  Lemma trained_exact : forall c, (forall i, (i < M)%nat -> wt weights i <> 0) ->
    full_rank M (length L) (fun r i => mono m (nth i L []) (fun j => X.[r, j])) ->
    (forall r, (r < M)%nat -> f.[r, 0%nat] = poly_eval m L c (fun j => X.[r, j])) ->
    forall i, (i < length L)%nat -> (pa_weights s).[i, 0%nat] = c i.
  Proof.
    intros c Hw HR Hf. apply (lsq_exact M (length L) _ _ _ c (full_rank_weights _ _ _ (wt weights) HR Hw) (t_min _ _ _ _ _ _ _ _ T)).
    intros i Hi. cbv beta. rewrite Hf by auto. unfold poly_eval. rewrite <- sumf_scal_l. apply sumf_ext. intros; ring.
  Qed.

  Lemma trained_value : forall x, poly_value s m x = poly_eval m L (fun c => (pa_weights s).[c, 0%nat]) x.
  Proof. intros. apply poly_value_ok; auto using trained_shape, trained_idx. Qed.
  Lemma trained_slope : forall k x, poly_slope s m k x = poly_deval m L (fun c => (pa_weights s).[c, 0%nat]) k x.
  Proof. intros. apply poly_slope_ok; auto using trained_shape, trained_idx. Qed.

  Lemma trained_gradient : forall k, (k < m)%nat -> poly_slope s m k (fun _ => 0) = (pa_g s).[k, 0%nat].
  Proof.
    intros k Hk. rewrite trained_slope, (gradient_at_0 N m L EL Hm) by auto. now rewrite (t_g _ _ _ _ _ _ _ _ T).
  Qed.

  Lemma trained_hessian : (2 <= N)%nat -> exists H, pa_H s = Some H /\ shape H = [m; m] /\
    (forall a b, (a < m)%nat -> (b < m)%nat ->
       derivable_pt_lim (fun t => poly_slope s m a (fun j => if Nat.eqb j b then t else 0)) 0 (H.[a, b])) /\
    (forall a b, (a < m)%nat -> (b < m)%nat -> H.[a, b] = H.[b, a]) /\
    (N = 2%nat -> forall x, poly_value s m x = (pa_weights s).[0%nat, 0%nat] + sumf m (fun k => (pa_g s).[k, 0%nat] * x k)
       + / 2 * sumf m (fun a => sumf m (fun b => H.[a, b] * x a * x b))).
  Proof.
    intros HN2. destruct (t_H _ _ _ _ _ _ _ _ T HN2) as (H & H1 & H2 & H3). exists H. split; auto. split; auto. split; [|split].
    - intros a b Ha Hb. rewrite H3 by auto. rewrite <- (hessian_at_0 N m L EL Hm _ a b HN2 Ha Hb).
      eapply derivable_pt_lim_ext; [|apply (poly_deval_deriv m L (fun c => (pa_weights s).[c, 0%nat]) a b (fun _ => 0) Hb)].
      intros t. cbv beta. symmetry. rewrite trained_slope. reflexivity.
    - intros a b Ha Hb. rewrite !H3 by auto. apply sumf_ext. intros i Hi. unfold h_term. rewrite (pair_sym m a b). unfold hcoef. now rewrite Nat.eqb_sym.
    - intros E x. rewrite trained_value, (poly_eval_taylor N m L EL Hm) by auto. rewrite (length2 N m L EL Hm E), Nat.sub_diag. cbn [sumf].
      rewrite Rplus_0_r. f_equal; [f_equal|f_equal].
      + apply sumf_ext. intros k Hk. now rewrite (t_g _ _ _ _ _ _ _ _ T).
      + apply sumf_ext. intros a Ha. apply sumf_ext. intros b Hb. now rewrite H3.
  Qed.

  (** ** R^2 *)
  Lemma M_pos : (1 <= M)%nat.
  Proof.
    pose proof (t_p _ _ _ _ _ _ _ _ T) as H. rewrite (index_set_length N m Hm L EL) in H.
    assert (binom m m <= binom (N + m) m)%nat by (apply binom_mono_le; lia). rewrite binom_diag in *. lia.
  Qed.

  Lemma var_col_sum : forall g, INR M * var_col g M = sumf M (fun i => (g.[i, 0%nat] - sumf M (fun i => g.[i, 0%nat]) / INR M) * (g.[i, 0%nat] - sumf M (fun i => g.[i, 0%nat]) / INR M)).
  Proof.
    intros g. assert (HM : INR M <> 0) by (apply not_0_INR; pose proof M_pos; lia).
    unfold var_col, sum_col. field_simplify; auto. 
  Qed.

  Lemma R2_unweighted : weights = None ->
    let mean := sumf M (fun i => f.[i, 0%nat]) / INR M in
    let tss := sumf M (fun i => (f.[i, 0%nat] - mean) * (f.[i, 0%nat] - mean)) in
    let rss := sumf M (fun i => (f.[i, 0%nat] - poly_value s m (fun j => X.[i, j])) * (f.[i, 0%nat] - poly_value s m (fun j => X.[i, j]))) in
    0 <= rss <= tss /\ (0 < tss -> pa_Rsqr s = Fin (1 - rss / tss)) /\ (tss = 0 -> pa_Rsqr s = NaN).
  Proof.
    intros EW mean tss rs.
    pose proof (t_R _ _ _ _ _ _ _ _ T) as HR. rewrite var_col_sum in HR. rewrite EW in HR. unfold wt in HR.
    rewrite (sumf_ext M (fun i => (mk2 M 1 (fun r _ => 1 * f.[r, 0%nat])).[i, 0%nat]) (fun i => f.[i, 0%nat])) in HR by (intros; rewrite at_mk2; ring).
    fold mean in HR.
    rewrite (sumf_ext M _ (fun i => (f.[i, 0%nat] - mean) * (f.[i, 0%nat] - mean))) in HR by (intros; rewrite at_mk2; ring).
    fold tss in HR.
    assert (RS : forall w, rss M (length L) (fun r c => 1 * mono m (nth c L []) (fun j => X.[r, j])) (fun r => 1 * f.[r, 0%nat]) w
       = sumf M (fun i => (f.[i, 0%nat] - poly_eval m L w (fun j => X.[i, j])) * (f.[i, 0%nat] - poly_eval m L w (fun j => X.[i, j])))).
    { intros w. unfold rss. apply sumf_ext. intros i Hi. unfold resid, poly_eval.
      rewrite (sumf_ext (length L) _ (fun c => mono m (nth c L []) (fun j => X.[i, j]) * w c)) by (intros; ring). ring. }
    rewrite RS in HR.
    assert (ER : rs = sumf M (fun i => (f.[i, 0%nat] - poly_eval m L (fun c => (pa_weights s).[c, 0%nat]) (fun j => X.[i, j])) * (f.[i, 0%nat] - poly_eval m L (fun c => (pa_weights s).[c, 0%nat]) (fun j => X.[i, j])))).
    { unfold rs. apply sumf_ext. intros i Hi. now rewrite trained_value. }
    rewrite <- ER in HR.
    assert (H0 : 0 <= rs) by (unfold rs; apply sumf_nonneg; intros; apply Rle_0_sqr).
    assert (H1 : rs <= tss).
    { rewrite ER. pose proof (t_min _ _ _ _ _ _ _ _ T (fun c => if Nat.eqb c 0 then mean else 0)) as Q. rewrite EW in Q. unfold wt in Q. rewrite !RS in Q.
      eapply Rle_trans; [exact Q|]. right. unfold tss. apply sumf_ext. intros i Hi.
      assert (E0 : poly_eval m L (fun c => if Nat.eqb c 0 then mean else 0) (fun j => X.[i, j]) = mean).
      { unfold poly_eval.
        assert (Hl : (0 < length L)%nat) by (rewrite (index_set_length N m Hm L EL); assert (binom m m <= binom (N + m) m)%nat by (apply binom_mono_le; lia); rewrite binom_diag in *; lia).
        rewrite (sumf_ext (length L) _ (fun c => kron_delta 0 c * (mono m (nth c L []) (fun j => X.[i, j]) * mean))).
        - rewrite (sumf_kd_l (length L) 0 (fun c => mono m (nth c L []) (fun j => X.[i, j]) * mean) Hl). rewrite (index_set_row0 N m Hm L EL), mono_zero_index. ring.
        - intros c Hc. unfold kron_delta. rewrite (Nat.eqb_sym 0 c). destruct (Nat.eqb c 0); ring. }
      now rewrite E0. }
    split; [auto|]. split.
    - intros Ht. rewrite HR. unfold xdiv. destruct (Req_EM_T tss 0); [lra|]. reflexivity.
    - intros Ht. rewrite HR. unfold xdiv. destruct (Req_EM_T tss 0); [|lra].
      assert (E : rs = 0) by lra. rewrite E. unfold xsgninf. destruct (Rlt_dec 0 0); [lra|]. reflexivity.
  Qed.
End Consequences.
