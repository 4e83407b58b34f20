(** Lemmas for C24-C26: unique_rows, the search loop of zonotope_vertices,
    counting of sign vectors *)
From Coq Require Import String Reals Lra Lia List Arith ZArith Bool Sorted.
From Verif Require Import Prelude Py NumArr LinAlg M_Misc M_RespSurf M_Gradients M_Subspaces M_QP M_Domains P_IndexSet P_Domains P_DomSample Properties_Domains.
Import ListNotations.
Open Scope R_scope.

(** ** unique_rows *)
Lemma fbyte_inj : forall x y, fbyte x = fbyte y -> x = y.
Proof. intros [] [] H; try discriminate H; reflexivity. Qed.
Lemma rowcmp_eq : forall a b, rowcmp a b = Eq <-> a = b.
Proof.
  induction a as [|x a IH]; intros [|y b]; simpl; split; intros H; try discriminate; auto.
  - destruct (Nat.compare_spec (fbyte x) (fbyte y)) as [E|E|E]; try discriminate. apply fbyte_inj in E. f_equal; auto. now apply IH.
  - injection H as -> ->. rewrite Nat.compare_refl. now apply IH.
Qed.
Lemma rowcmp_trans : forall a b c, rowcmp a b = Lt -> rowcmp b c = Lt -> rowcmp a c = Lt.
Proof.
  induction a as [|x a IH]; intros [|y b] [|z c]; simpl; intros H1 H2; try discriminate; auto.
  destruct (Nat.compare_spec (fbyte x) (fbyte y)) as [E|E|E]; try discriminate;
  destruct (Nat.compare_spec (fbyte y) (fbyte z)) as [F|F|F]; try discriminate;
  destruct (Nat.compare_spec (fbyte x) (fbyte z)) as [D|D|D]; try lia; auto. eapply IH; eauto.
Qed.
Lemma rowcmp_gt : forall a b, rowcmp a b = Gt -> rowcmp b a = Lt.
Proof.
  induction a as [|x a IH]; intros [|y b]; simpl; intros H; try discriminate; auto.
  rewrite Nat.compare_antisym. destruct (Nat.compare (fbyte x) (fbyte y)); simpl; try discriminate; auto.
Qed.
Lemma uinsert_In : forall x l y, In y (uinsert x l) <-> y = x \/ In y l.
Proof.
  intros x l. induction l as [|a t IH]; intros y; simpl.
  - split; intros [H|H]; auto.
  - destruct (rowcmp x a) eqn:E; simpl.
    + apply rowcmp_eq in E as ->. split; [intros [H|H]; auto|intros [H|[H|H]]; auto].
    + split; [intros [H|[H|H]]; auto|intros [H|[H|H]]; auto].
    + rewrite IH. split; [intros [H|[H|H]]; auto|intros [H|[H|H]]; auto].
Qed.
Definition rlt a b := rowcmp a b = Lt.
Lemma uinsert_sorted : forall x l, StronglySorted rlt l -> StronglySorted rlt (uinsert x l).
Proof.
  intros x l. induction l as [|a t IH]; intros H; simpl.
  - repeat constructor.
  - apply StronglySorted_inv in H as [H1 H2]. destruct (rowcmp x a) eqn:E.
    + constructor; auto.
    + constructor; [constructor; auto|]. constructor; auto.
      rewrite Forall_forall in H2 |- *. intros y Hy. eapply rowcmp_trans; eauto. apply H2; auto.
    + constructor; auto. rewrite Forall_forall in H2 |- *. intros y Hy. apply uinsert_In in Hy as [->|Hy]; auto. apply rowcmp_gt; auto.
Qed.
Lemma sorted_NoDup : forall l, StronglySorted rlt l -> NoDup l.
Proof.
  induction l as [|a t IH]; intros H; constructor; apply StronglySorted_inv in H as [H1 H2]; auto.
  intros Hi. rewrite Forall_forall in H2. specialize (H2 a Hi). unfold rlt in H2. rewrite (proj2 (rowcmp_eq a a) eq_refl) in H2. discriminate.
Qed.
Lemma unique_rows_In : forall l y, In y (unique_rows l) <-> In y l.
Proof.
  induction l as [|a t IH]; intros y; simpl; [tauto|]. unfold unique_rows in *. rewrite uinsert_In, IH. split; intros [H|H]; auto.
Qed.
Lemma unique_rows_NoDup : forall l, NoDup (unique_rows l).
Proof.
  intros l. apply sorted_NoDup. induction l; simpl; [constructor|]. now apply uinsert_sorted.
Qed.

Lemma bcast1_same : forall A B C (f : A -> B -> C) X Y k, shape X = [k] -> shape Y = [k] ->
  exists Z, bcast f X Y = Ok Z /\ shape Z = [k] /\ forall i, (i < k)%nat -> Z.[i] = f (X.[i]) (Y.[i]).
Proof.
  intros A B C f X Y k HX HY. unfold bcast. rewrite HX, HY. cbn [rev app bshape]. unfold bdim. rewrite Nat.eqb_refl.
  eexists. split; [reflexivity|]. split; [reflexivity|]. intros i Hi. cbn [at_]. unfold bget, rank. rewrite HX, HY. cbn [List.length Nat.sub skipn bixs]. now rewrite bidx_ok.
Qed.

(** ** the draws *)
Lemma normals_app : forall (G : gen) a b (s : gst G),
  normals (a + b) s = (fst (normals a s) ++ fst (normals b (snd (normals a s))), snd (normals b (snd (normals a s)))).
Proof.
  intros G. induction a; intros b s; simpl.
  - now destruct (normals b s).
  - destruct (g_normal G s) as [x s1]. rewrite IHa. destruct (normals a s1) as [l s2]. reflexivity.
Qed.
Lemma normals_length : forall (G : gen) a (s : gst G), List.length (fst (normals a s)) = a.
Proof.
  intros G. induction a; intros s; simpl; auto. destruct (g_normal G s) as [x s1]. specialize (IHa s1). destruct (normals a s1) as [l s2]. simpl in *. lia.
Qed.

Section Zono.
  Context {G : gen} {U L : Type}.
  Notation W := (world G U L).
  Variable W1 : nd R.
  Variables m n : nat.
  Hypothesis SW : shape W1 = [m; n].

  (** inner product of row i of W1 with the k-th direction of the draws l *)
  Definition proj (l : list R) (k i : nat) : R := sumf n (fun j => nth (k * n + j) l 0 * W1.[i, j]).
  Definition sv (l : list R) (k : nat) : list fsgn := map (fun i => fsign (proj l k i)) (seq 0 m).
  Definition inv (X : list (list fsgn)) (l : list R) (K : nat) : Prop :=
    NoDup X /\ forall s, In s X <-> exists k, (k < K)%nat /\ (s = sv l k \/ s = map fneg (sv l k)).

  Lemma fneg_inv : forall s, map fneg (map fneg s) = s.
  Proof. intros s. rewrite map_map. rewrite <- (map_id s) at 2. apply map_ext. intros []; reflexivity. Qed.

  Lemma sample_signs_ok : forall Ns (w : W),
    let dr := normals (Ns * n) (rng w) in
    exists X, sample_signs W1 n Ns w = (Ok X, set_rng w (snd dr)) /\ inv X (fst dr) Ns.
  Proof.
    intros Ns w dr. unfold sample_signs, normal2, mbind. rewrite repeat_normals. fold dr. cbn [mret].
    unfold mret at 1. unfold mlift.
    assert (St : shape (tr W1) = [n; m]) by (unfold tr; rewrite (nrows_shape2 _ W1 _ _ SW), (ncols_shape2 _ W1 _ _ SW); reflexivity).
    set (Zm := mk2 Ns n (fun i j => nth (i * n + j) (fst dr) 0)).
    rewrite (npdot2 Zm (tr W1) Ns n m eq_refl St). set (P := mk2 Ns m _).
    assert (SP : shape P = [Ns; m]) by reflexivity.
    assert (VP : forall i j, (i < Ns)%nat -> (j < m)%nat -> P.[i, j] = sumf n (fun l => Zm.[i, l] * (tr W1).[l, j])) by (intros; unfold P; now rewrite at_mk2). eexists. split; [reflexivity|]. split; [apply unique_rows_NoDup|].
    assert (HS : forall s, In s (sign_rows P) <-> exists k, (k < Ns)%nat /\ s = sv (fst dr) k).
    { intros s. unfold sign_rows. rewrite (nrows_shape2 _ P _ _ SP), (ncols_shape2 _ P _ _ SP), in_map_iff.
      assert (E : forall k, (k < Ns)%nat -> map (fun j => fsign (P.[k, j])) (seq 0 m) = sv (fst dr) k).
      { intros k Hk. unfold sv. apply map_ext_in. intros i Hi. reflexivity. }
      split.
      - intros (k & <- & Hk). apply in_seq in Hk. exists k. split; [lia|]. apply E. lia.
      - intros (k & Hk & ->). exists k. split; [apply E; auto|]. apply in_seq. lia. }
    intros s. rewrite unique_rows_In, in_app_iff, in_map_iff. setoid_rewrite unique_rows_In. split.
    - intros [H|(s' & <- & H)]; apply HS in H as (k & Hk & ->); exists k; auto.
    - intros (k & Hk & [->| ->]).
      + left. apply HS. eauto.
      + right. exists (sv (fst dr) k). split; auto. apply HS; eauto.
  Qed.

  Lemma sv_app_l : forall l1 l2 K k, List.length l1 = (K * n)%nat -> (k < K)%nat -> sv (l1 ++ l2) k = sv l1 k.
  Proof.
    intros l1 l2 K k HL Hk. unfold sv. apply map_ext. intros i. f_equal. unfold proj. apply sumf_ext. intros j Hj. rewrite app_nth1; auto. nia.
  Qed.
  Lemma sv_app_r : forall l1 l2 K k, List.length l1 = (K * n)%nat -> sv (l1 ++ l2) (K + k) = sv l2 k.
  Proof.
    intros l1 l2 K k HL. unfold sv. apply map_ext. intros i. f_equal. unfold proj. apply sumf_ext. intros j Hj. rewrite app_nth2 by nia. do 2 f_equal. nia.
  Qed.

  Lemma inv_app : forall X X0 l l0 K K0, List.length l = (K * n)%nat -> inv X l K -> inv X0 l0 K0 -> inv (unique_rows (X ++ X0)) (l ++ l0) (K + K0).
  Proof.
    intros X X0 l l0 K K0 HL [_ H] [_ H0]. split; [apply unique_rows_NoDup|]. intros s. rewrite unique_rows_In, in_app_iff, H, H0. split.
    - intros [(k & Hk & E)|(k & Hk & E)].
      + exists k. split; [lia|]. now rewrite (sv_app_l l l0 K k).
      + exists (K + k)%nat. split; [lia|]. now rewrite (sv_app_r l l0 K k).
    - intros (k & Hk & E). destruct (Nat.lt_ge_cases k K) as [C|C].
      + left. exists k. split; auto. now rewrite (sv_app_l l l0 K k) in E.
      + right. exists (k - K)%nat. split; [lia|]. replace k with (K + (k - K))%nat in E by lia. now rewrite (sv_app_r l l0 K) in E.
  Qed.

  Lemma zono_loop_ok : forall Ns total rem X l K (w : W), List.length l = (K * n)%nat -> inv X l K ->
    exists r X', (r <= S rem)%nat /\
      zono_loop W1 n Ns total rem X w = (Ok X', set_rng w (snd (normals (r * (Ns * n)) (rng w)))) /\
      inv X' (l ++ fst (normals (r * (Ns * n)) (rng w))) (K + r * Ns) /\
      ((r < S rem)%nat -> (total <= Z.of_nat (List.length X'))%Z) /\
      (forall q, (q < r)%nat -> exists Xq, inv Xq (l ++ fst (normals (q * (Ns * n)) (rng w))) (K + q * Ns) /\ (Z.of_nat (List.length Xq) < total)%Z).
  Proof.
    intros Ns total. induction rem; intros X l K w HL HI; simpl; destruct (Z.ltb_spec (Z.of_nat (List.length X)) total) as [H|H].
    - destruct (sample_signs_ok Ns w) as (X0 & E & I0). exists 1%nat, (unique_rows (X ++ X0)). split; [lia|]. unfold mbind. rewrite E. rewrite !Nat.mul_1_l.
      split; [reflexivity|]. split; [apply inv_app; auto|]. split; [intros; lia|]. intros q Hq. replace q with 0%nat by lia. exists X. simpl. rewrite app_nil_r, Nat.add_0_r. auto.
    - exists 0%nat, X. simpl. rewrite app_nil_r, Nat.add_0_r. split; [lia|]. split; [unfold mret; destruct w; reflexivity|]. split; auto. split; [auto|]. intros; lia.
    - destruct (sample_signs_ok Ns w) as (X0 & E & I0). unfold mbind. rewrite E.
      set (w1 := set_rng w (snd (normals (Ns * n) (rng w)))).
      assert (HL1 : List.length (l ++ fst (normals (Ns * n) (rng w))) = ((K + Ns) * n)%nat) by (rewrite app_length, normals_length, HL; lia).
      destruct (IHrem (unique_rows (X ++ X0)) _ (K + Ns)%nat w1 HL1 (inv_app _ _ _ _ _ _ HL HI I0)) as (r & X' & Hr & E' & I' & T & Q).
      exists (S r), X'. split; [lia|].
      assert (ES : forall r, normals (S r * (Ns * n)) (rng w) = (fst (normals (Ns * n) (rng w)) ++ fst (normals (r * (Ns * n)) (rng w1)), snd (normals (r * (Ns * n)) (rng w1)))).
      { intros r0. simpl Nat.mul. now rewrite normals_app. }
      rewrite ES. cbn [fst snd]. rewrite E'. split; [reflexivity|]. rewrite app_assoc. replace (K + S r * Ns)%nat with (K + Ns + r * Ns)%nat by lia.
      split; auto. split; [intros; apply T; lia|]. intros [|q] Hq.
      + exists X. simpl. rewrite app_nil_r, Nat.add_0_r. auto.
      + destruct (Q q ltac:(lia)) as (Xq & IQ & LQ). exists Xq. rewrite ES. cbn [fst]. rewrite app_assoc. replace (K + S q * Ns)%nat with (K + Ns + q * Ns)%nat by lia. auto.
    - exists 0%nat, X. simpl. rewrite app_nil_r, Nat.add_0_r. split; [lia|]. split; [unfold mret; destruct w; reflexivity|]. split; auto. split; [auto|]. intros; lia.
  Qed.
End Zono.

(** ** counting sign patterns: the Sauer-Shelah lemma *)
Definition phi (m d : nat) : nat := list_sum (map (binom m) (seq 0 d)).
Lemma phi_next : forall m d, phi m (S d) = (phi m d + binom m d)%nat.
Proof. intros m d. unfold phi. rewrite seq_S, map_app, list_sum_app. simpl. lia. Qed.
Lemma phi_S : forall m d, phi (S m) (S d) = (phi m (S d) + phi m d)%nat.
Proof.
  intros m d. induction d.
  - unfold phi. simpl. rewrite !binom_0. lia.
  - rewrite (phi_next (S m)), IHd, (phi_next m (S d)), (phi_next m d), binom_pascal. lia.
Qed.
Definition shattered (F : list (list bool)) (I : list nat) : Prop :=
  forall p : nat -> bool, exists f, In f F /\ forall i, In i I -> nth i f true = p i.
Definition bl_dec : forall a b : list bool, {a = b} + {a <> b} := list_eq_dec Bool.bool_dec.
Definition memb (x : list bool) (l : list (list bool)) : bool := if in_dec bl_dec x l then true else false.
Lemma memb_In : forall x l, memb x l = true <-> In x l.
Proof. intros. unfold memb. destruct (in_dec bl_dec x l); split; auto; discriminate. Qed.
Definition starts (b : bool) (f : list bool) : bool := match f with [] => false | a :: _ => Bool.eqb a b end.
Definition tails (b : bool) (F : list (list bool)) : list (list bool) := map (@tl bool) (filter (starts b) F).
Lemma tails_In : forall b F g, In g (tails b F) <-> In (b :: g) F.
Proof.
  intros b F g. unfold tails. rewrite in_map_iff. split.
  - intros (f & <- & H). apply filter_In in H as [H1 H2]. destruct f as [|a f]; [discriminate|]. simpl in *. apply Bool.eqb_prop in H2 as ->. auto.
  - intros H. exists (b :: g). split; auto. apply filter_In. split; auto. simpl. apply Bool.eqb_reflx.
Qed.
Lemma tails_NoDup : forall b F, NoDup F -> NoDup (tails b F).
Proof.
  intros b F. induction F as [|f F IH]; intros H; unfold tails; simpl; [constructor|].
  apply NoDup_cons_iff in H as [H1 H2]. specialize (IH H2). destruct f as [|a f]; simpl; auto.
  destruct (Bool.eqb a b) eqn:E; auto. simpl. constructor; auto. apply Bool.eqb_prop in E as ->. intros C. apply H1. now apply tails_In.
Qed.
Lemma tails_length : forall m F, (forall f, In f F -> List.length f = S m) -> List.length F = (List.length (tails true F) + List.length (tails false F))%nat.
Proof.
  intros m. induction F as [|f F IH]; intros H; auto. unfold tails in *. simpl. rewrite IH by (intros; apply H; right; auto).
  assert (Lf : List.length f = S m) by (apply H; left; auto). destruct f as [|[|] f]; [discriminate| |]; simpl; lia.
Qed.
Lemma filter_split_length : forall (A : Type) (p : A -> bool) l, List.length l = (List.length (filter p l) + List.length (filter (fun x => negb (p x)) l))%nat.
Proof. intros A p. induction l; simpl; auto. destruct (p a); simpl; lia. Qed.

Lemma NoDup_app_disj : forall (A : Type) (a b : list A), NoDup a -> NoDup b -> (forall x, In x a -> In x b -> False) -> NoDup (a ++ b).
Proof.
  induction a; simpl; intros b H1 H2 H3; auto. apply NoDup_cons_iff in H1 as [H1 H1']. constructor.
  - intros C. apply in_app_or in C as [C|C]; eauto.
  - apply IHa; eauto.
Qed.
Lemma sauer : forall m d F, NoDup F -> (forall f, In f F -> List.length f = m) -> (phi m d < List.length F)%nat ->
  exists I, List.length I = d /\ NoDup I /\ (forall i, In i I -> (i < m)%nat) /\ shattered F I.
Proof.
  induction m; intros d F ND HL HF.
  - destruct d.
    + destruct F as [|f F]; [simpl in HF; lia|]. exists []. split; auto. split; [constructor|]. split; [intros ? []|]. intros p. exists f. split; [left; auto|intros ? []].
    + exfalso. assert (1 <= phi 0 (S d))%nat by (unfold phi; simpl; lia).
      destruct F as [|f [|g F]]; simpl in HF; try lia.
      assert (f = []) by (specialize (HL f (or_introl eq_refl)); destruct f; auto; discriminate).
      assert (g = []) by (specialize (HL g (or_intror (or_introl eq_refl))); destruct g; auto; discriminate). subst.
      apply NoDup_cons_iff in ND as [C _]. apply C. left; auto.
  - destruct d.
    + destruct F as [|f F]; [simpl in HF; lia|]. exists []. split; auto. split; [constructor|]. split; [intros ? []|]. intros p. exists f. split; [left; auto|intros ? []].
    + rewrite phi_S in HF. rewrite (tails_length m F HL) in HF.
      set (F1 := tails true F) in *. set (F0 := tails false F) in *.
      assert (N1 : NoDup F1) by (apply tails_NoDup; auto). assert (N0 : NoDup F0) by (apply tails_NoDup; auto).
      set (Un := F1 ++ filter (fun g => negb (memb g F1)) F0). set (In2 := filter (fun g => memb g F1) F0).
      assert (E : (List.length Un + List.length In2 = List.length F1 + List.length F0)%nat).
      { unfold Un, In2. rewrite app_length. rewrite (filter_split_length _ (fun g => memb g F1) F0). lia. }
      assert (TL : forall b g, In g (tails b F) -> List.length g = m).
      { intros b g H. apply tails_In in H. apply HL in H. simpl in H. lia. }
      destruct (Nat.lt_ge_cases (phi m (S d)) (List.length Un)) as [C|C].
      * destruct (IHm (S d) Un) as (J & LJ & NJ & BJ & SJ); auto.
        { apply NoDup_app_disj; auto using NoDup_filter. intros g H H'. apply filter_In in H' as [_ H']. apply negb_true_iff in H'. apply memb_In in H. congruence. }
        { intros f H. unfold Un in H. apply in_app_or in H as [H|H]; [|apply filter_In in H as [H _]]; eapply TL; eauto. }
        exists (map S J). split; [now rewrite map_length|]. split; [apply FinFun.Injective_map_NoDup; auto; intros ? ? Q; lia|]. split.
        { intros i H. apply in_map_iff in H as (j & <- & H). apply BJ in H. lia. }
        intros p. destruct (SJ (fun i => p (S i))) as (g & Hg & Q). unfold Un in Hg. apply in_app_or in Hg as [H|H]; [|apply filter_In in H as [H _]]; apply tails_In in H; eexists; split; try exact H;
        intros i Hi; apply in_map_iff in Hi as (j & <- & Hj); simpl; auto.
      * destruct (IHm d In2) as (J & LJ & NJ & BJ & SJ); [apply NoDup_filter; auto| |lia|].
        { intros f H. unfold In2 in H. apply filter_In in H as [H _]. eapply TL; eauto. }
        exists (0%nat :: map S J). split; [simpl; now rewrite map_length, LJ|]. split.
        { constructor; [intros H; apply in_map_iff in H as (? & ? & _); discriminate|]. apply FinFun.Injective_map_NoDup; auto; intros ? ? Q; lia. }
        split. { intros i [<-|H]; [lia|]. apply in_map_iff in H as (j & <- & H). apply BJ in H. lia. }
        intros p. destruct (SJ (fun i => p (S i))) as (g & Hg & Q). apply filter_In in Hg as [H0 H1]. apply memb_In in H1. apply tails_In in H0. apply tails_In in H1.
        exists (p 0%nat :: g). split; [destruct (p 0%nat); auto|]. intros i [<-|Hi]; auto. apply in_map_iff in Hi as (j & <- & Hj). simpl. auto.
Qed.

(** number of vertices the search asks for *)
Lemma nzv_phi : forall m n, (1 <= m)%nat -> nzv (IsA (Z.of_nat m)) (IsA (Z.of_nat n)) = Ok (Z.of_nat (2 * phi (m - 1) n)).
Proof.
  intros m n Hm. unfold nzv. f_equal. rewrite Nat2Z.id.
  assert (E : forall a l, fold_left (fun N i => (N + comb (Z.of_nat m - 1) i)%nat) l a = (a + list_sum (map (binom (m - 1)) l))%nat).
  { intros a l. revert a. induction l as [|i l IH]; intros a; simpl; [lia|]. rewrite IH. unfold comb. destruct (Z.ltb_spec (Z.of_nat m - 1) 0); [lia|]. replace (Z.to_nat (Z.of_nat m - 1)) with (m - 1)%nat by lia. lia. }
  rewrite E. unfold phi. simpl (0 + _)%nat. lia.
Qed.

Lemma zono_run : forall (G : gen) (U L : Type) W1 m n Ns maxcount (w : world G U L),
  shape W1 = [m; n] -> (1 <= m)%nat ->
  exists r S, let dr := normals ((1 + r) * (Ns * n)) (rng w) in
    let V := List.length S in
    let XM := mk2 V m (fun i j => fval (nth j (nth i S []) SZero)) in
    zonotope_vertices W1 (Z.of_nat Ns) maxcount w = (Ok (mk2 V n (fun i j => sumf m (fun l => XM.[i, l] * W1.[l, j])), XM), set_rng w (snd dr)) /\
    inv W1 m n S (fst dr) ((1 + r) * Ns) /\
    (r <= Z.to_nat maxcount + 1)%nat /\
    ((r < Z.to_nat maxcount + 1)%nat -> (2 * phi (m - 1) n <= V)%nat) /\
    (forall q, (q < r)%nat -> exists Sq, inv W1 m n Sq (fst (normals ((1 + q) * (Ns * n)) (rng w))) ((1 + q) * Ns) /\ (List.length Sq < 2 * phi (m - 1) n)%nat).
Proof.
  intros G U L W1 m n Ns maxcount w SW Hm.
  destruct (sample_signs_ok W1 m n SW Ns w) as (X0 & E0 & I0).
  set (w1 := set_rng w (snd (normals (Ns * n) (rng w)))) in *.
  destruct (zono_loop_ok W1 m n SW Ns (Z.of_nat (2 * phi (m - 1) n)) (Z.to_nat maxcount) X0 (fst (normals (Ns * n) (rng w))) Ns w1 (normals_length _ _ _) I0) as (r & S & Hr & EL & IS & HT & HQ).
  assert (ES : forall r, normals ((1 + r) * (Ns * n)) (rng w) = (fst (normals (Ns * n) (rng w)) ++ fst (normals (r * (Ns * n)) (rng w1)), snd (normals (r * (Ns * n)) (rng w1)))).
  { intros r0. simpl Nat.mul. now rewrite normals_app. }
  exists r, S. cbv zeta. rewrite ES. cbn [fst snd]. split; [|split; [exact IS|split; [lia|split]]].
  - unfold zonotope_vertices. unfold mbind at 1, mlift at 1. unfold shape2 at 1. rewrite SW. unfold mbind at 1, mlift at 1. rewrite nzv_phi by auto.
    unfold mbind at 1, mlift at 1. unfold dimZ at 1. destruct (Z.ltb_spec (Z.of_nat Ns) 0) as [C|C]; [lia|]. rewrite Nat2Z.id.
    unfold mbind at 1. rewrite E0. unfold mbind at 1. rewrite EL. unfold mbind at 1, mlift at 1.
    set (XM := mk2 (List.length S) m _). rewrite (npdot2 XM W1 (List.length S) m n eq_refl SW).
    unfold mbind at 1, mlift at 1.
    match goal with |- context [reshape _ ?Y] => rewrite (reshape_id _ Y : reshape [List.length S; n] Y = Ok Y) end.
    unfold mbind at 1, mlift at 1.
    rewrite (reshape_id _ XM : reshape [List.length S; m] XM = Ok XM). reflexivity.
  - intros H. specialize (HT ltac:(lia)). lia.
  - intros q Hq. destruct (HQ q Hq) as (Xq & IQ & LQ). exists Xq. rewrite ES. cbn [fst]. split; [exact IQ|lia].
Qed.
