(** Facts about the bootstrap of subspaces.py *)
From Coq Require Import String Reals Lra Lia List Arith ZArith Bool.
From Verif Require Import Prelude Py NumArr LinAlg Spectral Det M_Misc M_Gradients M_Subspaces P_Misc P_Subspaces EighRef.
Import ListNotations.
Open Scope R_scope.

(** row i of [Y] is row [nth i ind] of [X] *)
Definition rows_of (X : nd R) (ind : list nat) (Y : nd R) : Prop :=
  exists r c, shape X = [r; c] /\ shape Y = [List.length ind; c] /\ Forall (fun k => (k < r)%nat) ind /\
    forall i j, (i < List.length ind)%nat -> (j < c)%nat -> Y.[i, j] = X.[nth i ind 0%nat, j].
Definition opt_rows_of (X : option (nd R)) (ind : list nat) (Y : option (nd R)) : Prop :=
  match X with
  | None => Y = None
  | Some x => exists y, Y = Some y /\ rows_of x ind y
  end.

Lemma fancy_rows_ok : forall X ind Y, fancy_rows X ind = Ok Y -> rows_of X ind Y.
Proof.
  intros X ind Y H. unfold fancy_rows in H. destruct (shape X) as [|r [|c [|]]] eqn:E; try discriminate.
  unfold take_rows in H. rewrite (nrows_shape2 _ X r c E), (ncols_shape2 _ X r c E) in H.
  destruct (forallb _ ind) eqn:F; [|discriminate]. inversion H; subst Y.
  exists r, c. split; auto. split; auto. split; auto.
  apply Forall_forall. rewrite forallb_forall in F. intros k Hk. apply Nat.ltb_lt. auto.
Qed.
Lemma opt_rows_ok : forall X ind Y, opt_rows X ind = Ok Y -> opt_rows_of X ind Y.
Proof.
  intros [X|] ind Y H; simpl in H; [|congruence]. apply rbind_ok in H. destruct H as (y & H & E). inversion E; subst.
  exists y. split; auto. now apply fancy_rows_ok.
Qed.
Lemma fancy_rows_returns : forall X ind r c, shape X = [r; c] -> Forall (fun k => (k < r)%nat) ind -> exists Y, fancy_rows X ind = Ok Y.
Proof.
  intros X ind r c HX HF. unfold fancy_rows. rewrite HX. unfold take_rows. rewrite (nrows_shape2 _ X r c HX).
  assert (E : forallb (fun k => Nat.ltb k r) ind = true).
  { apply forallb_forall. rewrite Forall_forall in HF. intros k Hk. apply Nat.ltb_lt. auto. }
  rewrite E. eauto.
Qed.

Section Boot.
  Context {G : gen} {U : Type}.
  Notation W := (world G U (nd R)).
  Variable norm2 : nd R -> R.
  Variable det : nd R -> R.
  Hypothesis Hnorm : norm2_contract norm2.
  Hypothesis Hdet : det_contract det.

  Lemma repeatM_randint : forall n hi (w : W), (0 < hi)%nat -> exists ind w', repeatM n (draw_randint hi) w = (Ok ind, w').
  Proof.
    induction n as [|n IH]; intros hi w Hh; simpl; [eexists; eexists; reflexivity|].
    unfold mbind at 1. unfold draw_randint at 1. destruct hi as [|hi]; [lia|].
    destruct (g_randint G (S hi) (rng w)) as [x s].
    destruct (IH (S hi) (set_rng w s) Hh) as (ind & w' & E). unfold mbind. rewrite E. eexists; eexists; reflexivity.
  Qed.

  Lemma bootstrap_replicate_ok : forall X f df weights (w : W) X0 f0 df0 w0 w',
    bootstrap_replicate X f df weights w = (Ok (X0, f0, df0, w0), w') ->
    exists ind, List.length ind = nrows weights /\ Forall (fun k => (k < nrows weights)%nat) ind /\ (1 <= nrows weights)%nat /\
      opt_rows_of X ind X0 /\ opt_rows_of f ind f0 /\ opt_rows_of df ind df0 /\ rows_of weights ind w0.
  Proof.
    intros X f df weights w X0 f0 df0 w0 w' H. unfold bootstrap_replicate in H.
    destruct (shape weights) as [|M rest] eqn:E; [discriminate|]. destruct M as [|M]; [discriminate|].
    apply mbind_ok in H. destruct H as (ind & w1 & H1 & H).
    apply mbind_ok in H. destruct H as (X1 & w2 & H2 & H). unfold mlift in H2. injection H2 as H2 <-.
    apply mbind_ok in H. destruct H as (f1 & w2 & H3 & H). unfold mlift in H3. injection H3 as H3 <-.
    apply mbind_ok in H. destruct H as (d1 & w2 & H4 & H). unfold mlift in H4. injection H4 as H4 <-.
    apply mbind_ok in H. destruct H as (w2 & w3 & H5 & H). unfold mlift in H5. injection H5 as H5 <-.
    inversion H; subst. assert (EN : nrows weights = S M) by (unfold nrows; now rewrite E). rewrite EN.
    exists ind. split; [eapply repeatM_length; eauto|].
    split; [eapply (repeatM_all (fun k => (k < S M)%nat)); eauto; intros; eapply draw_randint_range; eauto|].
    split; [lia|]. repeat split; try (apply opt_rows_ok; auto). now apply fancy_rows_ok.
  Qed.

  (** the replicate is always produced when all present data have as many rows as there are weights *)
  Lemma bootstrap_replicate_returns : forall X f df weights M c (w : W), shape weights = [M; c] -> (1 <= M)%nat ->
    (forall x, X = Some x -> exists k, shape x = [M; k]) -> (forall x, f = Some x -> exists k, shape x = [M; k]) ->
    (forall x, df = Some x -> exists k, shape x = [M; k]) ->
    exists r w', bootstrap_replicate X f df weights w = (Ok r, w').
  Proof.
    intros X f df weights M c w Hw HM HX Hf Hd. unfold bootstrap_replicate. rewrite Hw. destruct M as [|M]; [lia|].
    destruct (repeatM_randint (S M) (S M) w ltac:(lia)) as (ind & w1 & E).
    assert (HF : Forall (fun k => (k < S M)%nat) ind)
      by (eapply (repeatM_all (fun k => (k < S M)%nat)); eauto; intros; eapply draw_randint_range; eauto).
    assert (HO : forall Y : option (nd R), (forall x, Y = Some x -> exists k, shape x = [S M; k]) -> exists Y0, opt_rows Y ind = Ok Y0).
    { intros [Y|] HY; simpl; [|eauto]. destruct (HY Y eq_refl) as (k & Hk).
      destruct (fancy_rows_returns Y ind (S M) k Hk HF) as (Y0 & ->). simpl. eauto. }
    destruct (HO X HX) as (X0 & EX). destruct (HO f Hf) as (f0 & Ef). destruct (HO df Hd) as (d0 & Ed).
    destruct (fancy_rows_returns weights ind (S M) c Hw HF) as (w0 & Ew).
    unfold mbind, mlift, mret. rewrite E, EX, Ef, Ed, Ew. eauto.
  Qed.

  (** ** One replicate *)
  (** the product of the first j+1 columns of A, transposed, with columns a.. of B *)
  Definition crossprod (m : nat) (A B : nat -> nat -> R) (a : nat) (i k : nat) : R :=
    sumf m (fun l => A l i * B l (a + k)%nat).

  Lemma cross_ok : forall m Wm V j a b, shape Wm = [m; m] -> shape V = [m; m] -> (S j <= m)%nat -> (b <= m)%nat -> (a <= b)%nat ->
    exists P, cross Wm V j a b = Ok P /\ shape P = [S j; (b - a)%nat] /\
      forall i k, ent P i k = crossprod m (ent Wm) (ent V) a i k.
  Proof.
    intros m Wm V j a b HW HV Hj Hb Hab. unfold cross.
    assert (SA : shape (tr (cols_slice Wm 0 (j + 1))) = [S j; m]).
    { unfold tr, cols_slice, nrows, ncols. cbn [shape mk2 nth]. rewrite HW. cbn [nth]. do 2 f_equal. lia. }
    assert (SB : shape (cols_slice V a b) = [m; (b - a)%nat]).
    { unfold cols_slice, nrows, ncols. cbn [shape mk2 nth]. rewrite HV. cbn [nth]. do 2 f_equal. lia. }
    rewrite (mdot_ok _ _ _ _ _ SA SB). eexists; split; [reflexivity|]. split; [reflexivity|]. reflexivity.
  Qed.

  (** products of blocks of orthogonal matrices do not lengthen vectors *)
  Lemma cross_short : forall m A B j a n, orthonormal m m A -> orthonormal m m B -> (S j <= m)%nat -> (a + n <= m)%nat ->
    forall x, sumf (S j) (fun i => sumf n (fun k => crossprod m A B a i k * x k) * sumf n (fun k => crossprod m A B a i k * x k))
      <= sumf n (fun k => x k * x k).
  Proof.
    intros m A B j a n HA HB Hj Hn x.
    set (y := fun l => sumf n (fun k => B l (a + k)%nat * x k)).
    assert (E1 : forall i, sumf n (fun k => crossprod m A B a i k * x k) = sumf m (fun l => A l i * y l)).
    { intros i. unfold crossprod, y.
      rewrite (sumf_ext n _ (fun k => sumf m (fun l => A l i * (B l (a + k)%nat * x k)))) by (intros; rewrite <- sumf_scal_r; apply sumf_ext; intros; ring).
      rewrite sumf_swap. apply sumf_ext; intros. now rewrite sumf_scal_l. }
    rewrite (sumf_ext (S j) _ (fun i => sumf m (fun l => A l i * y l) * sumf m (fun l => A l i * y l))) by (intros; rewrite !E1; auto).
    eapply Rle_trans; [apply (bessel m (S j) A)|].
    { intros p q Hp Hq. apply HA; lia. }
    right. unfold y.
    rewrite (sumf_ext m _ (fun l => sumf n (fun k => sumf n (fun q => x k * x q * (B l (a + k)%nat * B l (a + q)%nat))))).
    2: { intros l Hl. rewrite sumf_mul. apply sumf_ext; intros; apply sumf_ext; intros; ring. }
    rewrite (sumf_swap m n). apply sumf_ext; intros k Hk. rewrite (sumf_swap m n).
    rewrite (sumf_ext n _ (fun q => kron_delta k q * (x k * x q))).
    - now rewrite (sumf_kd_l n k (fun q => x k * x q)).
    - intros q Hq. rewrite sumf_scal_l, (HB (a + k)%nat (a + q)%nat) by lia.
      destruct (Nat.eq_dec k q) as [->|N]; [rewrite !kd_same; ring|rewrite !kd_diff by lia; ring].
  Qed.

  Lemma subspace_dist_range : forall m A B j v, orthonormal m m A -> orthonormal m m B -> (S j < m)%nat ->
    is_norm2 (S j) (m - S j) (crossprod m A B (S j)) v -> 0 <= v <= 1.
  Proof.
    intros m A B j v HA HB Hj (H0 & _ & (x & Hx & Ex)). split; auto.
    pose proof (cross_short m A B j (S j) (m - S j) HA HB ltac:(lia) ltac:(lia) x) as H.
    rewrite Ex, Hx in H. destruct (Rle_dec v 1); auto. nra.
  Qed.

  Lemma subspace_det_range : forall m A B j, orthonormal m m A -> orthonormal m m B -> (S j <= m)%nat ->
    Rabs (determinant (S j) (crossprod m A B 0)) <= 1.
  Proof.
    intros m A B j HA HB Hj. apply contraction_det. intros x. apply (cross_short m A B j 0 (S j)); auto.
  Qed.

  Lemma mapr_ok_inv : forall A B (f : A -> res B) l l', mapr f l = Ok l' ->
    List.length l' = List.length l /\ forall i d d', (i < List.length l)%nat -> f (nth i l d) = Ok (nth i l' d').
  Proof.
    induction l as [|a l IH]; intros l' H; simpl in H.
    - inversion H; subst. split; auto. intros i d d' Hi. simpl in Hi. lia.
    - apply rbind_ok in H. destruct H as (y & H1 & H). apply rbind_ok in H. destruct H as (ys & H2 & H). inversion H; subst.
      destruct (IH ys H2) as (L & N). split; [simpl; lia|]. intros [|i] d d' Hi; simpl; auto. apply N. simpl in Hi. lia.
  Qed.
  Lemma mapr_ok : forall A B (f : A -> res B) l, (forall a, In a l -> exists b, f a = Ok b) -> exists l', mapr f l = Ok l'.
  Proof.
    induction l as [|a l IH]; intros H; simpl; [eauto|]. destruct (H a ltac:(now left)) as (b & ->). simpl.
    destruct IH as (l' & ->); [intros; apply H; now right|]. simpl. eauto.
  Qed.
  Lemma mmap_ok_inv : forall A B (W' : Type) (f : A -> M W' B) l w l' w', mmap f l w = (Ok l', w') ->
    List.length l' = List.length l /\ forall i d d', (i < List.length l)%nat -> exists w1 w2, f (nth i l d) w1 = (Ok (nth i l' d'), w2).
  Proof.
    induction l as [|a l IH]; intros w l' w' H; simpl in H.
    - inversion H; subst. split; auto. intros i d d' Hi. simpl in Hi. lia.
    - apply mbind_ok in H. destruct H as (y & w1 & H1 & H). apply mbind_ok in H. destruct H as (ys & w2 & H2 & H). inversion H; subst.
      destruct (IH w1 ys w' H2) as (L & N). split; [simpl; lia|]. intros [|i] d d' Hi; simpl; eauto. apply N. simpl in Hi. lia.
  Qed.

  Definition smethod := option (nd R) -> option (nd R) -> option (nd R) -> nd R -> M W (nd R * nd R).
  (** [eb], [Vb] is the method's answer on the data resampled with [ind] *)
  Definition is_replicate (method : smethod) (X f df : option (nd R)) (weights : nd R) (ind : list nat) (eb Vb : nd R) : Prop :=
    List.length ind = nrows weights /\ Forall (fun k => (k < nrows weights)%nat) ind /\
    exists X0 f0 df0 w0 wa wb, opt_rows_of X ind X0 /\ opt_rows_of f ind f0 /\ opt_rows_of df ind df0 /\ rows_of weights ind w0 /\
      method X0 f0 df0 w0 wa = (Ok (eb, Vb), wb).

  Lemma boot_step_ok : forall m Wm X f df weights (method : smethod) w r w',
    shape Wm = [m; m] -> (1 <= m)%nat ->
    (forall X f df weights w e V w', method X f df weights w = (Ok (e, V), w') -> exists k, shape e = [k; 1%nat] /\ shape V = [k; k]) ->
    boot_step norm2 det m Wm X f df weights method w = (Ok r, w') ->
    exists ind eb Vb, is_replicate method X f df weights ind eb Vb /\ shape eb = [m; 1%nat] /\ shape Vb = [m; m] /\
      (forall j, (j < m)%nat -> (rp_e r).[j] = eb.[j, 0%nat]) /\
      (forall j, (j < m - 1)%nat -> is_norm2 (S j) (m - S j) (crossprod m (ent Wm) (ent Vb) (S j)) ((rp_dist r).[j])) /\
      (forall j, (j < m - 1)%nat -> (rp_det r).[j] = determinant (S j) (crossprod m (ent Wm) (ent Vb) 0)).
  Proof.
    intros m Wm X f df weights method w r w' HW Hm HS H. unfold boot_step in H.
    apply mbind_ok in H. destruct H as ((((X0 & f0) & df0) & w0) & w1 & H1 & H).
    apply mbind_ok in H. destruct H as ((e0 & V0) & w2 & H2 & H).
    apply mbind_ok in H. destruct H as (ev & w3 & H3 & H). inversion H3 as [[H3' E3]]; subst w3; clear H3.
    apply mbind_ok in H. destruct H as (ds & w3 & H4 & H). inversion H4 as [[H4' E4]]; subst w3; clear H4.
    apply mbind_ok in H. destruct H as (dt & w3 & H5 & H). inversion H5 as [[H5' E5]]; subst w3; clear H5.
    inversion H; subst r w'; clear H. cbn [rp_e rp_dist rp_det].
    destruct (bootstrap_replicate_ok _ _ _ _ _ _ _ _ _ _ H1) as (ind & L1 & L2 & _ & HX & Hf & Hd & Hw).
    destruct (HS _ _ _ _ _ _ _ _ H2) as (k & Se & SV).
    destruct (reshape_inv _ _ _ _ H3') as (Sz & Sev). unfold size in Sz. rewrite Se in Sz. cbn [prodn] in Sz.
    assert (k = m) by lia. subst k.
    destruct (reshape_ok _ [m] e0) as (ev' & F1 & F2 & F3); [unfold size; rewrite Se; simpl; lia|].
    rewrite F1 in H3'. inversion H3'; subst ev'; clear H3'.
    exists ind, e0, V0. split; [split; [auto|split; auto]; exists X0, f0, df0, w0, w1, w2; auto|].
    split; auto. split; auto. split; [|split].
    - intros j Hj. rewrite F3 by (constructor; auto; constructor). rewrite Se. cbn [unravel ravel prodn].
      change (1 * 1)%nat with 1%nat. rewrite Nat.div_1_r, Nat.mod_1_r. do 2 f_equal. lia.
    - intros j Hj. rewrite at_mk1. destruct (mapr_ok_inv _ _ _ _ _ H4') as (LL & N). rewrite seq_length in N.
      specialize (N j 0%nat (zeros2 0 0) Hj). rewrite seq_nth in N by auto. simpl (0 + j)%nat in N.
      rewrite (ncols_shape2 _ V0 m m SV) in N.
      destruct (cross_ok m Wm V0 j (j + 1) m HW SV ltac:(lia) ltac:(lia) ltac:(lia)) as (P & E1 & E2 & E3).
      rewrite E1 in N. inversion N as [NP]. rewrite <- NP. replace (m - (j + 1))%nat with (m - S j)%nat in E2 by lia.
      pose proof (Hnorm (S j) (m - S j)%nat P E2 ltac:(lia) ltac:(lia)) as (Q1 & Q2 & Q3).
      replace (S j) with (j + 1)%nat at 3 by lia.
      assert (EQ : forall x i, sumf (m - S j) (fun l => crossprod m (ent Wm) (ent V0) (j + 1) i l * x l) = sumf (m - S j) (fun l => ent P i l * x l))
        by (intros; apply sumf_ext; intros; now rewrite E3).
      split; [auto|]. split.
      + intros x. rewrite (sumf_ext (S j) _ (fun i => sumf (m - S j) (fun l => ent P i l * x l) * sumf (m - S j) (fun l => ent P i l * x l))) by (intros; now rewrite EQ).
        apply Q2.
      + destruct Q3 as (x & Hx & Ex). exists x. split; auto. rewrite <- Ex. apply sumf_ext; intros; now rewrite EQ.
    - intros j Hj. rewrite at_mk1. destruct (mapr_ok_inv _ _ _ _ _ H5') as (LL & N). rewrite seq_length in N.
      specialize (N j 0%nat (zeros2 0 0) Hj). rewrite seq_nth in N by auto. simpl (0 + j)%nat in N.
      destruct (cross_ok m Wm V0 j 0 (j + 1) HW SV ltac:(lia) ltac:(lia) ltac:(lia)) as (P & E1 & E2 & E3).
      rewrite E1 in N. inversion N as [NP]. rewrite <- NP. replace (j + 1 - 0)%nat with (S j) in E2 by lia.
      rewrite (Hdet (S j) P E2). apply determinant_ext; intros; now rewrite E3.
  Qed.

  (** ** All replicates *)
  Definition is_min (n : nat) (g : nat -> R) (v : R) : Prop := (forall i, (i < n)%nat -> v <= g i) /\ exists i, (i < n)%nat /\ g i = v.
  Definition is_max (n : nat) (g : nat -> R) (v : R) : Prop := (forall i, (i < n)%nat -> g i <= v) /\ exists i, (i < n)%nat /\ g i = v.

  (** what the m data columns are: the gradients' when given, else the inputs' *)
  Definition data_dim (X df : option (nd R)) (m : nat) : Prop :=
    match df, X with
    | Some d, _ => exists M, shape d = [M; m]
    | None, Some x => exists M, shape x = [M; m]
    | None, None => False
    end.

  Lemma bootstrap_ranges_ok : forall e Wm X f df weights (method : smethod) nboot w e_br sub_br li_F w' k,
    (1 <= nboot)%nat -> shape Wm = [k; k] ->
    (forall m, data_dim X df m -> k = m) ->
    (forall X f df weights w e V w', method X f df weights w = (Ok (e, V), w') -> exists k, shape e = [k; 1%nat] /\ shape V = [k; k]) ->
    bootstrap_ranges norm2 det e Wm X f df weights method nboot w = (Ok (e_br, sub_br, li_F), w') ->
    let m := k in (1 <= m)%nat /\ data_dim X df m /\
    shape e_br = [m; 2%nat] /\ shape sub_br = [(m - 1)%nat; 3%nat] /\ shape li_F = [m; 1%nat] /\
    exists (ind : nat -> list nat) (eb Vb : nat -> nd R) (dist : nat -> nat -> R),
      (forall i, (i < nboot)%nat -> is_replicate method X f df weights (ind i) (eb i) (Vb i) /\ shape (eb i) = [m; 1%nat] /\ shape (Vb i) = [m; m]) /\
      (forall i j, (i < nboot)%nat -> (j < m - 1)%nat -> is_norm2 (S j) (m - S j) (crossprod m (ent Wm) (ent (Vb i)) (S j)) (dist i j)) /\
      (forall j, (j < m)%nat -> is_min nboot (fun i => (eb i).[j, 0%nat]) (e_br.[j, 0%nat]) /\ is_max nboot (fun i => (eb i).[j, 0%nat]) (e_br.[j, 1%nat])) /\
      (forall j, (j < m - 1)%nat -> is_min nboot (fun i => dist i j) (sub_br.[j, 0%nat]) /\
         sub_br.[j, 1%nat] = sumf nboot (fun i => dist i j) / INR nboot /\ is_max nboot (fun i => dist i j) (sub_br.[j, 2%nat])) /\
      (let li j := match j with O => 0 | S j' =>
           sumf nboot (fun i => 1 - Rabs (determinant (S j') (crossprod m (ent Wm) (ent (Vb i)) 0))) / INR nboot end in
       forall j, (j < m)%nat -> li_F.[j, 0%nat] = xdiv (Fin (li j)) (Fin (sumf m li))).
  Proof.
    intros e Wm X f df weights method nboot w e_br sub_br li_F w' k Hnb HW Hdim HS H m. unfold bootstrap_ranges in H.
    apply mbind_ok in H. destruct H as (((X1 & df1) & m1) & w1 & H1 & H). inversion H1 as [[H1' E1]]; subst w1; clear H1.
    assert (HD : data_dim X df m1 /\ X1 = X /\ df1 = df).
    { destruct df as [d|].
      - apply rbind_ok in H1'. destruct H1' as (((d' & M) & m2) & Hp & HH). inversion HH; subst.
        unfold process_inputs in Hp. destruct (shape d) as [|a [|b [|]]] eqn:ES; try discriminate.
        rewrite <- ES, reshape_id in Hp. cbn [rbind] in Hp. inversion Hp; subst. split; [exists M; auto|auto].
      - destruct X as [x|]; [|discriminate].
        apply rbind_ok in H1'. destruct H1' as (((d' & M) & m2) & Hp & HH). inversion HH; subst.
        unfold process_inputs in Hp. destruct (shape x) as [|a [|b [|]]] eqn:ES; try discriminate.
        rewrite <- ES, reshape_id in Hp. cbn [rbind] in Hp. inversion Hp; subst. split; [exists M; auto|auto]. }
    destruct HD as (HD & -> & ->). specialize (Hdim m1 HD). subst m1. fold m in H, HD, HW. clear H1'.
    destruct (Nat.eqb_spec m 0) as [|Hm0]; [discriminate|].
    apply mbind_ok in H. destruct H as (reps & w2 & H2 & H). unfold mret in H. injection H as <- <- <- <-.
    destruct (mmap_ok_inv _ _ _ _ _ _ _ _ H2) as (L & N). rewrite seq_length in L, N.
    set (d0 := Rep (zeros2 0 0) (zeros2 0 0) (zeros2 0 0)) in *.
    assert (ALL : forall i, exists p : list nat * nd R * nd R, (i < nboot)%nat ->
       is_replicate method X f df weights (fst (fst p)) (snd (fst p)) (snd p) /\ shape (snd (fst p)) = [m; 1%nat] /\ shape (snd p) = [m; m] /\
      (forall j, (j < m)%nat -> (rp_e (nth i reps d0)).[j] = (snd (fst p)).[j, 0%nat]) /\
      (forall j, (j < m - 1)%nat -> is_norm2 (S j) (m - S j) (crossprod m (ent Wm) (ent (snd p)) (S j)) ((rp_dist (nth i reps d0)).[j])) /\
      (forall j, (j < m - 1)%nat -> (rp_det (nth i reps d0)).[j] = determinant (S j) (crossprod m (ent Wm) (ent (snd p)) 0))).
    { intros i. destruct (lt_dec i nboot) as [Hi|Hi]; [|exists ([], zeros2 0 0, zeros2 0 0); intros; contradiction].
      destruct (N i 0%nat d0 Hi) as (wa & wb & E).
      destruct (boot_step_ok m Wm X f df weights method wa _ wb HW ltac:(lia) HS E) as (ind & eb & Vb & A).
      exists (ind, eb, Vb). intros _. exact A. }
    clear N.
    (* finite choice over i < nboot *)
    assert (CH : forall n, exists F : nat -> list nat * nd R * nd R, forall i, (i < n)%nat -> (i < nboot)%nat ->
       is_replicate method X f df weights (fst (fst (F i))) (snd (fst (F i))) (snd (F i)) /\ shape (snd (fst (F i))) = [m; 1%nat] /\ shape (snd (F i)) = [m; m] /\
      (forall j, (j < m)%nat -> (rp_e (nth i reps d0)).[j] = (snd (fst (F i))).[j, 0%nat]) /\
      (forall j, (j < m - 1)%nat -> is_norm2 (S j) (m - S j) (crossprod m (ent Wm) (ent (snd (F i))) (S j)) ((rp_dist (nth i reps d0)).[j])) /\
      (forall j, (j < m - 1)%nat -> (rp_det (nth i reps d0)).[j] = determinant (S j) (crossprod m (ent Wm) (ent (snd (F i))) 0))).
    { induction n as [|n (F & HF)]; [exists (fun _ => ([], zeros2 0 0, zeros2 0 0)); intros; lia|].
      destruct (ALL n) as (p & Hp). exists (fun i => if Nat.eqb i n then p else F i). intros i Hi Hb.
      destruct (Nat.eqb_spec i n) as [->|Ne]; [auto|]. apply HF; auto; lia. }
    destruct (CH nboot) as (F & HF). clear CH ALL.
    split; [lia|]. split; auto. split; auto. split; auto. split; auto.
    exists (fun i => fst (fst (F i))), (fun i => snd (fst (F i))), (fun i => snd (F i)), (fun i j => (rp_dist (nth i reps d0)).[j]).
    split; [intros i Hi; destruct (HF i Hi Hi) as (A & B & C & _); auto|].
    split; [intros i j Hi Hj; destruct (HF i Hi Hi) as (_ & _ & _ & _ & A & _); auto|].
    split; [|split].
    - intros j Hj. split.
      + cbn [at_ mk2 nth]. destruct (min_upto_spec (nboot - 1) (fun i => (rp_e (nth i reps d0)).[j])) as (P1 & (i0 & Hi0 & P2)).
        split.
        * intros i Hi. destruct (HF i Hi Hi) as (_ & _ & _ & A & _). rewrite <- A by auto. apply P1. lia.
        * exists i0. split; [lia|]. destruct (HF i0 ltac:(lia) ltac:(lia)) as (_ & _ & _ & A & _). rewrite <- A by auto. auto.
      + cbn [at_ mk2 nth]. destruct (max_upto_spec (nboot - 1) (fun i => (rp_e (nth i reps d0)).[j])) as (P1 & (i0 & Hi0 & P2)).
        split.
        * intros i Hi. destruct (HF i Hi Hi) as (_ & _ & _ & A & _). rewrite <- A by auto. apply P1. lia.
        * exists i0. split; [lia|]. destruct (HF i0 ltac:(lia) ltac:(lia)) as (_ & _ & _ & A & _). rewrite <- A by auto. auto.
    - intros j Hj. split; [|split; [reflexivity|]].
      + cbn [at_ mk2 nth]. destruct (min_upto_spec (nboot - 1) (fun i => (rp_dist (nth i reps d0)).[j])) as (P1 & (i0 & Hi0 & P2)).
        split; [intros i Hi; apply P1; lia|exists i0; split; [lia|auto]].
      + cbn [at_ mk2 nth]. destruct (max_upto_spec (nboot - 1) (fun i => (rp_dist (nth i reps d0)).[j])) as (P1 & (i0 & Hi0 & P2)).
        split; [intros i Hi; apply P1; lia|exists i0; split; [lia|auto]].
    - cbv zeta. intros j Hj.
      set (lm := fun j => match j with O => 0 | S j' => sumf nboot (fun i => 1 - Rabs ((rp_det (nth i reps d0)).[j'])) / INR nboot end).
      set (lr := fun j => match j with O => 0 | S j' => sumf nboot (fun i => 1 - Rabs (determinant (S j') (crossprod m (ent Wm) (ent (snd (F i))) 0))) / INR nboot end).
      assert (EL : forall j, (j < m)%nat -> lm j = lr j).
      { intros [|j'] Hj'; auto. unfold lm, lr. f_equal. apply sumf_ext; intros i Hi. destruct (HF i Hi Hi) as (_ & _ & _ & _ & _ & A). rewrite A by lia. reflexivity. }
      transitivity (xdiv (Fin (lm j)) (Fin (sumf m lm))); [reflexivity|].
      rewrite (EL j Hj), (sumf_ext m lm lr EL). reflexivity.
  Qed.
End Boot.
