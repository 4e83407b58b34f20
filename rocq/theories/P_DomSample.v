(** The samplers of domains.py: rejection, hit and run, random walk *)
From Coq Require Import String Reals Lra Lia List Arith ZArith Bool.
From Verif Require Import Prelude Py NumArr LinAlg M_Misc M_RespSurf M_Gradients M_Subspaces M_QP M_Domains P_QP P_Domains P_LocalLinear Properties_QP.
Import ListNotations.
Open Scope R_scope.

Lemma mlift_inv : forall W A (r : res A) (w : W) a w', mlift r w = (Ok a, w') -> r = Ok a /\ w' = w.
Proof. intros W A r w a w' H. unfold mlift in H. injection H as -> ->. auto. Qed.
Lemma mret_inv : forall W A (a b : A) (w w' : W), mret a w = (Ok b, w') -> b = a /\ w' = w.
Proof. intros W A a b w w' H. unfold mret in H. injection H as <- <-. auto. Qed.
Lemma Ok_eq : forall A (a b : A), Ok a = Ok b -> a = b.
Proof. intros A a b H. now injection H. Qed.
Lemma mk2_shape_of : forall A (X : nd A) r c, shape X = [r; c] -> nrows X = r /\ ncols X = c.
Proof. intros A X r c H. split; [apply (nrows_shape2 _ X _ _ H)|apply (ncols_shape2 _ X _ _ H)]. Qed.

(** the polytope of inactive variables: -1 <= s + W2 z <= 1 *)
Definition inpoly (W2 : nd R) (m k : nat) (s z : nat -> R) : Prop :=
  forall i, (i < m)%nat -> -1 <= s i + sumf k (fun j => W2.[i, j] * z j) <= 1.
(** slack of the 2m constraints: the lower ones, then the upper ones *)
Definition slack (W2 : nd R) (m k : nat) (s z : nat -> R) (r : nat) : R :=
  if Nat.ltb r m then 1 + (s r + sumf k (fun j => W2.[r, j] * z j))
  else 1 - (s (r - m)%nat + sumf k (fun j => W2.[(r - m)%nat, j] * z j)).

Lemma slack_poly : forall W2 m k s z, (forall r, (r < 2 * m)%nat -> 0 <= slack W2 m k s z r) <-> inpoly W2 m k s z.
Proof.
  intros W2 m k s z. unfold slack, inpoly. split; intros H.
  - intros i Hi. assert (H1 := H i ltac:(lia)). assert (H2 := H (m + i)%nat ltac:(lia)).
    destruct (Nat.ltb_spec i m); [|lia]. destruct (Nat.ltb_spec (m + i) m); [lia|]. replace (m + i - m)%nat with i in H2 by lia. lra.
  - intros r Hr. destruct (Nat.ltb_spec r m).
    + specialize (H r ltac:(lia)). lra.
    + specialize (H (r - m)%nat ltac:(lia)). lra.
Qed.

(** the pair (A, b) built by polytope *)
Definition poly_pair (W2 s : nd R) (m k : nat) (A b : nd R) : Prop :=
  shape A = [(2 * m)%nat; k] /\ shape b = [(2 * m)%nat; 1%nat] /\
  forall (z : nat -> R) r, (r < 2 * m)%nat -> sumf k (fun j => A.[r, j] * z j) - b.[r, 0%nat] = slack W2 m k (fun i => s.[i, 0%nat]) z r.
Lemma polytope_pair : forall W2 s m k, shape W2 = [m; k] -> shape s = [m; 1%nat] -> exists A b, polytope W2 s m = Ok (A, b) /\ poly_pair W2 s m k A b.
Proof.
  intros W2 s m k H2 Hs. destruct (polytope_ok W2 s m k H2 Hs) as (A & b & E & SA & Sb & A1 & A2 & B1 & B2).
  exists A, b. split; auto. split; auto. split; auto. intros z r Hr. unfold slack. destruct (Nat.ltb_spec r m).
  - rewrite B1 by auto. rewrite (sumf_ext k _ (fun j => W2.[r, j] * z j)) by (intros; now rewrite A1). ring.
  - set (i := (r - m)%nat). replace r with (m + i)%nat by (unfold i; lia). assert (i < m)%nat by (unfold i; lia).
    rewrite B2 by auto. rewrite (sumf_ext k _ (fun j => - (W2.[i, j] * z j))) by (intros; rewrite A2 by auto; ring). rewrite sumf_opp. ring.
Qed.

(** ** the hit-and-run step *)

Lemma fold_xmin_ninf : forall l, (forall x, In x l -> x = NInf \/ exists r, x = Fin r) -> fold_left xmin l NInf = NInf.
Proof.
  induction l as [|y l IH]; intros H; [reflexivity|]. simpl. destruct (H y (or_introl eq_refl)) as [->|(r & ->)]; apply IH; intros; apply H; now right.
Qed.
Lemma fold_xmin : forall l a v, fold_left xmin l a = Fin v -> (forall x, In x (a :: l) -> x = NInf \/ exists r, x = Fin r) ->
  forall x, In x (a :: l) -> exists r, x = Fin r /\ v <= r.
Proof.
  induction l as [|y l IH]; intros a v H HF x Hx; simpl in H.
  - subst a. destruct Hx as [<-|[]]. exists v. split; auto. lra.
  - assert (HL : forall x, In x l -> x = NInf \/ exists r, x = Fin r) by (intros; apply HF; right; now right).
    destruct (HF a (or_introl eq_refl)) as [->|(x0 & ->)].
    { exfalso. change (xmin NInf y) with (if negb (xbefore y NInf) then NInf else y) in H.
      destruct (HF y (or_intror (or_introl eq_refl))) as [->|(r & ->)]; cbn in H; rewrite fold_xmin_ninf in H by auto; discriminate. }
    destruct (HF y (or_intror (or_introl eq_refl))) as [->|(r & ->)]. { exfalso. cbn in H. rewrite fold_xmin_ninf in H by auto. discriminate. }
    assert (K : exists q, xmin (Fin x0) (Fin r) = Fin q /\ q <= x0 /\ q <= r).
    { unfold xmin, xle, xbefore. cbn. destruct (Rlt_dec r x0); cbn; eexists; split; try reflexivity; lra. }
    destruct K as (q & Eq & Q1 & Q2). rewrite Eq in H.
    assert (IH' := IH (Fin q) v H ltac:(intros z [<-|Hz]; [right; eauto|auto])).
    destruct (IH' (Fin q) (or_introl eq_refl)) as (q' & E' & L'). injection E' as <-.
    destruct Hx as [<-|[<-|Hx]]; [exists x0|exists r|apply (IH' x); now right]; split; auto; lra.
Qed.
Lemma fold_xmax : forall l a v, fold_left xmax l a = Fin v -> (exists x, a = Fin x) -> (forall x, In x l -> exists r, x = Fin r) ->
  forall x, In x (a :: l) -> exists r, x = Fin r /\ r <= v.
Proof.
  induction l as [|y l IH]; intros a v H (x0 & ->) HF x Hx; simpl in H.
  - injection H as ->. destruct Hx as [<-|[]]. exists v. split; auto. lra.
  - destruct (HF y (or_introl eq_refl)) as (r & ->).
    assert (K : exists q, xmax (Fin x0) (Fin r) = Fin q /\ x0 <= q /\ r <= q).
    { unfold xmax, xle, xbefore. cbn. destruct (Rlt_dec r x0); cbn; eexists; split; try reflexivity; lra. }
    destruct K as (q & Eq & Q1 & Q2). rewrite Eq in H.
    assert (IH' := IH (Fin q) v H ltac:(eauto) ltac:(intros; apply HF; now right)).
    destruct (IH' (Fin q) (or_introl eq_refl)) as (q' & E' & L'). injection E' as <-.
    destruct Hx as [<-|[<-|Hx]]; [exists x0|exists r|apply (IH' x); now right]; split; auto; lra.
Qed.

Lemma sqrt_eps_pos : 0 < sqrt_eps.
Proof. unfold sqrt_eps. apply sqrt_lt_R0. apply Rinv_0_lt_compat. apply pow_lt. lra. Qed.

Lemma ratios_in : forall f g sel i p, nrows f = p -> (i < p)%nat -> sel (g.[i, 0%nat]) = true -> f.[i, 0%nat] < - sqrt_eps ->
  In (xdiv (Fin (f.[i, 0%nat])) (Fin (g.[i, 0%nat]))) (ratios f g sel).
Proof.
  intros f g sel i p Hp Hi Hs Hf. unfold ratios. apply in_map_iff. exists i. split; auto. apply filter_In. split; [apply in_seq; lia|].
  rewrite Hs. cbn [andb]. now apply Rltb_spec.
Qed.
Lemma ratios_inv : forall f g sel x, In x (ratios f g sel) -> exists i, (i < nrows f)%nat /\ x = xdiv (Fin (f.[i, 0%nat])) (Fin (g.[i, 0%nat])) /\ sel (g.[i, 0%nat]) = true /\ f.[i, 0%nat] < - sqrt_eps.
Proof.
  intros f g sel x H. unfold ratios in H. apply in_map_iff in H. destruct H as (i & <- & H). apply filter_In in H. destruct H as [H1 H2].
  apply andb_true_iff in H2. destruct H2 as [H2 H3]. apply in_seq in H1. exists i. split; [lia|]. split; auto. split; auto. now apply Rltb_spec.
Qed.

Lemma ratios_ext : forall f g f' g' sel p, nrows f = p -> nrows f' = p -> (forall i, (i < p)%nat -> f.[i, 0%nat] = f'.[i, 0%nat]) ->
  (forall i, (i < p)%nat -> g.[i, 0%nat] = g'.[i, 0%nat]) -> ratios f g sel = ratios f' g' sel.
Proof.
  intros f g f' g' sel p H1 H2 HF HG. unfold ratios. rewrite H1, H2.
  assert (FE : forall l, (forall i, In i l -> (i < p)%nat) ->
    map (fun i => xdiv (Fin (f.[i, 0%nat])) (Fin (g.[i, 0%nat]))) (filter (fun i => sel (g.[i, 0%nat]) && Rltb (f.[i, 0%nat]) (- sqrt_eps))%bool l) =
    map (fun i => xdiv (Fin (f'.[i, 0%nat])) (Fin (g'.[i, 0%nat]))) (filter (fun i => sel (g'.[i, 0%nat]) && Rltb (f'.[i, 0%nat]) (- sqrt_eps))%bool l)).
  { induction l as [|i l IH]; intros Hl; [reflexivity|]. cbn [filter]. rewrite (HF i), (HG i) by (apply Hl; now left).
    destruct (_ && _)%bool; cbn [map]; rewrite IH by (intros; apply Hl; now right); auto. rewrite (HF i), (HG i) by (apply Hl; now left). reflexivity. }
  apply FE. intros i Hi. apply in_seq in Hi. lia.
Qed.

Section Step.
  Context {G : gen} {U L : Type}.
  Notation W := (world G U L).

  (** one step keeps every constraint that had slack more than sqrt_eps *)
  Lemma hr_step_inv : forall p k A b z0 d (w w' : W) z1, shape A = [p; k] -> shape b = [p; 1%nat] -> shape z0 = [k; 1%nat] -> shape d = [k; 1%nat] ->
    hr_step A b z0 d w = (Ok z1, w') ->
    shape z1 = [k; 1%nat] /\
    exists eps_min eps_max e, np_amin (ratios (mk2 p 1 (fun i _ => b.[i, 0%nat] - sumf k (fun j => A.[i, j] * z0.[j, 0%nat]))) (mk2 p 1 (fun i _ => sumf k (fun j => A.[i, j] * d.[j, 0%nat]))) (fun g => Rleb g 0)) = Ok (Fin eps_max) /\
      np_amax (ratios (mk2 p 1 (fun i _ => b.[i, 0%nat] - sumf k (fun j => A.[i, j] * z0.[j, 0%nat]))) (mk2 p 1 (fun i _ => sumf k (fun j => A.[i, j] * d.[j, 0%nat]))) (fun g => Rltb 0 g)) = Ok (Fin eps_min) /\
      draw_uniform eps_min eps_max w = (Ok e, w') /\ forall j, (j < k)%nat -> z1.[j, 0%nat] = z0.[j, 0%nat] + e * d.[j, 0%nat].
  Proof.
    intros p k A b z0 d w w' z1 HA Hb Hz Hd H. unfold hr_step in H.
    apply mbind_ok in H. destruct H as (Az & w1 & E & H). apply mlift_inv in E. destruct E as [E ->]. rewrite (npdot2 A z0 p k 1 HA Hz) in E. apply Ok_eq in E. subst Az.
    apply mbind_ok in H. destruct H as (f & w1 & E & H). apply mlift_inv in E. destruct E as [E ->].
    unfold bcast2 in E. rewrite Hb in E. cbn [shape mk2] in E. unfold bdim in E. rewrite !Nat.eqb_refl in E. apply Ok_eq in E. subst f.
    apply mbind_ok in H. destruct H as (g & w1 & E & H). apply mlift_inv in E. destruct E as [E ->]. rewrite (npdot2 A d p k 1 HA Hd) in E. apply Ok_eq in E. subst g.
    apply mbind_ok in H. destruct H as (ma & w1 & E1 & H). apply mlift_inv in E1. destruct E1 as [E1 ->].
    apply mbind_ok in H. destruct H as (mi & w1 & E2 & H). apply mlift_inv in E2. destruct E2 as [E2 ->].
    apply mbind_ok in H. destruct H as (e & w1 & E3 & H). apply mlift_inv in H. destruct H as [H ->].
    destruct (bcast2_same _ _ _ Rplus z0 (amap (Rmult e) d) k 1 Hz Hd) as (z1' & Ez & Sz & Vz). rewrite Ez in H. apply Ok_eq in H. subst z1'.
    split; auto. unfold uniform_x in E3. destruct mi as [mi| | |]; try discriminate. destruct ma as [ma| | |]; try discriminate.
    assert (RE : forall sel, ratios (mk2 p 1 (fun i j => b.[bidx p i, bidx 1 j] - (mk2 p 1 (fun i j => sumf k (fun l => A.[i, l] * z0.[l, j]))).[bidx p i, bidx 1 j]))
        (mk2 p 1 (fun i j => sumf k (fun l => A.[i, l] * d.[l, j]))) sel =
        ratios (mk2 p 1 (fun i _ => b.[i, 0%nat] - sumf k (fun j => A.[i, j] * z0.[j, 0%nat]))) (mk2 p 1 (fun i _ => sumf k (fun j => A.[i, j] * d.[j, 0%nat]))) sel).
    { intros sel. apply (ratios_ext _ _ _ _ sel p); try reflexivity. intros i Hi. rewrite !at_mk2, (bidx_ok p) by auto. reflexivity. }
    rewrite RE in E1, E2. exists mi, ma, e. split; auto. split; auto. split; auto. intros j Hj. rewrite Vz by lia. reflexivity.
  Qed.

  Lemma hr_step_keeps : forall p k A b z0 d (w w' : W) z1, shape A = [p; k] -> shape b = [p; 1%nat] -> shape z0 = [k; 1%nat] -> shape d = [k; 1%nat] ->
    hr_step A b z0 d w = (Ok z1, w') ->
    shape z1 = [k; 1%nat] /\
    forall i, (i < p)%nat -> sqrt_eps < sumf k (fun j => A.[i, j] * z0.[j, 0%nat]) - b.[i, 0%nat] -> 0 <= sumf k (fun j => A.[i, j] * z1.[j, 0%nat]) - b.[i, 0%nat].
  Proof.
    intros p k A b z0 d w w' z1 HA Hb Hz Hd H. destruct (hr_step_inv p k A b z0 d w w' z1 HA Hb Hz Hd H) as (Sz & mi & ma & e & E1 & E2 & E3 & V).
    split; auto. intros i Hi Hs.
    set (f := mk2 p 1 (fun i _ => b.[i, 0%nat] - sumf k (fun j => A.[i, j] * z0.[j, 0%nat]))) in *.
    set (g := mk2 p 1 (fun i _ => sumf k (fun j => A.[i, j] * d.[j, 0%nat]))) in *.
    rewrite (sumf_ext k (fun j => A.[i, j] * z1.[j, 0%nat]) (fun j => A.[i, j] * z0.[j, 0%nat] + e * (A.[i, j] * d.[j, 0%nat]))) by (intros j Hj; rewrite V by auto; ring).
    rewrite sumf_plus, sumf_scal_l. change (sumf k (fun j => A.[i, j] * d.[j, 0%nat])) with (g.[i, 0%nat]).
    assert (F : f.[i, 0%nat] = b.[i, 0%nat] - sumf k (fun j => A.[i, j] * z0.[j, 0%nat])) by reflexivity.
    assert (NF : nrows f = p) by reflexivity. clearbody f g.
    set (fi := f.[i, 0%nat]) in *. assert (Fi : fi < - sqrt_eps) by lra. assert (SP := sqrt_eps_pos).
    (* every ratio of the first kind is non-negative and at least ma *)
    assert (M1 : forall x, In x (ratios f g (fun g => Rleb g 0)) -> exists r, x = Fin r /\ ma <= r).
    { unfold np_amin in E1. destruct (ratios f g (fun g => Rleb g 0)) as [|a l] eqn:ER; [discriminate|]. apply Ok_eq in E1. apply (fold_xmin l a ma E1).
      intros x Hx. rewrite <- ER in Hx. apply ratios_inv in Hx. destruct Hx as (q & _ & -> & _ & Hf). cbn [xdiv]. destruct (Req_EM_T _ 0); [|right; eexists; reflexivity].
      left. unfold xsgninf. destruct (Rlt_dec 0 _); [lra|]. destruct (Rlt_dec _ 0); [reflexivity|lra]. }
    assert (M2 : forall x, In x (ratios f g (fun g => Rltb 0 g)) -> exists r, x = Fin r /\ r <= mi).
    { unfold np_amax in E2. destruct (ratios f g (fun g => Rltb 0 g)) as [|a l] eqn:ER; [discriminate|]. apply Ok_eq in E2.
      assert (K : forall x, In x (a :: l) -> exists r, x = Fin r).
      { intros x Hx. rewrite <- ER in Hx. apply ratios_inv in Hx. destruct Hx as (q & _ & -> & Hg & Hf). apply Rltb_spec in Hg. rewrite xdiv_fin by lra. eauto. }
      apply (fold_xmax l a mi E2); [apply K; now left|intros; apply K; now right]. }
    (* the signs of the two ends *)
    assert (S1 : 0 <= ma).
    { unfold np_amin in E1. destruct (ratios f g (fun g => Rleb g 0)) as [|a l] eqn:ER; [discriminate|]. apply Ok_eq in E1.
      assert (KF : forall x, In x (a :: l) -> exists r, x = Fin r /\ 0 <= r).
      { intros x Hx. destruct (M1 x Hx) as (r & -> & _). exists r. split; auto. rewrite <- ER in Hx. apply ratios_inv in Hx. destruct Hx as (q & _ & Ex & Hg & Hf).
        apply Rleb_spec in Hg. simpl in Ex. destruct (Req_EM_T (g.[q, 0%nat]) 0) as [E0|E0].
        - unfold xsgninf in Ex. destruct (Rlt_dec 0 _); [discriminate|]. destruct (Rlt_dec _ 0); discriminate.
        - injection Ex as ->. replace (f.[q, 0%nat] / g.[q, 0%nat]) with ((- f.[q, 0%nat]) * / (- g.[q, 0%nat])) by (field; auto).
          apply Rmult_le_pos; [lra|]. left. apply Rinv_0_lt_compat. lra. }
      clear - E1 KF. revert a E1 KF. induction l as [|y l IH]; intros a E KF; simpl in E.
      - subst a. destruct (KF (Fin ma) (or_introl eq_refl)) as (r & E & Hr). injection E as ->. auto.
      - apply (IH (xmin a y)); auto. intros x [<-|Hx]; [|apply KF; right; now right]. unfold xmin. destruct (xle a y); apply KF; [now left|right; now left]. }
    assert (S2 : mi <= 0).
    { unfold np_amax in E2. destruct (ratios f g (fun g => Rltb 0 g)) as [|a l] eqn:ER; [discriminate|]. apply Ok_eq in E2.
      assert (KF : forall x, In x (a :: l) -> exists r, x = Fin r /\ r <= 0).
      { intros x Hx. destruct (M2 x Hx) as (r & -> & _). exists r. split; auto. rewrite <- ER in Hx. apply ratios_inv in Hx. destruct Hx as (q & _ & Ex & Hg & Hf).
        apply Rltb_spec in Hg. rewrite xdiv_fin in Ex by lra. injection Ex as ->.
        assert (0 < / g.[q, 0%nat]) by (apply Rinv_0_lt_compat; lra). unfold Rdiv. nra. }
      clear - E2 KF. revert a E2 KF. induction l as [|y l IH]; intros a E KF; simpl in E.
      - subst a. destruct (KF (Fin mi) (or_introl eq_refl)) as (r & E & Hr). injection E as ->. auto.
      - apply (IH (xmax a y)); auto. intros x [<-|Hx]; [|apply KF; right; now right]. unfold xmax. destruct (xle a y); apply KF; [right; now left|now left]. }
    assert (HE := draw_uniform_range mi ma w e w' ltac:(lra) E3).
    set (gi := g.[i, 0%nat]) in *. enough (Q : 0 <= e * gi - fi) by lra.
    destruct (Rle_lt_dec gi 0) as [Hg|Hg].
    - destruct (M1 (xdiv (Fin fi) (Fin gi))) as (r & Er & Lr).
      { apply (ratios_in f g (fun g => Rleb g 0) i p); [exact NF|auto| |exact Fi]. now apply Rleb_spec. }
      simpl in Er. destruct (Req_EM_T gi 0) as [E0|E0]; [unfold xsgninf in Er; destruct (Rlt_dec 0 fi); [discriminate|]; destruct (Rlt_dec fi 0); discriminate|].
      injection Er as Er. assert (gi * r = fi) by (rewrite <- Er; field; auto). nra.
    - destruct (M2 (xdiv (Fin fi) (Fin gi))) as (r & Er & Lr).
      { apply (ratios_in f g (fun g => Rltb 0 g) i p); [exact NF|auto| |exact Fi]. now apply Rltb_spec. }
      rewrite xdiv_fin in Er by lra. injection Er as Er. assert (gi * r = fi) by (rewrite <- Er; field; lra). nra.
  Qed.

  Lemma pick_dir_shape : forall A b z0 k rem (w w' : W) d, pick_dir A b z0 k rem w = (Ok (Some d), w') -> shape d = [k; 1%nat].
  Proof.
    intros A b z0 k. induction rem; intros w w' d H; simpl in H;
      apply mbind_ok in H; destruct H as (d' & w1 & E & H); unfold normal2 in E; apply mbind_ok in E; destruct E as (l & w2 & E & E'); apply mret_inv in E'; destruct E' as [-> ->];
      apply mbind_ok in H; destruct H as (t & w3 & E1 & H); apply mbind_ok in H; destruct H as (At & w4 & E2 & H); apply mbind_ok in H; destruct H as (le & w5 & E3 & H).
    - apply mret_inv in H. destruct H; discriminate.
    - destruct (any2 le); [eapply IHrem; eauto|]. apply mret_inv in H. destruct H as [H _]. injection H as ->. reflexivity.
  Qed.

  (** the points of the walk; the walk stands still after giving up *)
  Lemma hr_walk_keeps : forall p k A b, shape A = [p; k] -> shape b = [p; 1%nat] ->
    forall rows z0 (w w' : W) l, shape z0 = [k; 1%nat] -> hr_walk A b z0 k rows w = (Ok l, w') ->
    List.length l = rows /\ (forall r, (r < rows)%nat -> shape (nth r l z0) = [k; 1%nat]) /\
    forall r, (r < rows)%nat -> let prev := nth r (z0 :: l) z0 in let cur := nth r l z0 in
      cur = prev \/ forall i, (i < p)%nat -> sqrt_eps < sumf k (fun j => A.[i, j] * prev.[j, 0%nat]) - b.[i, 0%nat] -> 0 <= sumf k (fun j => A.[i, j] * cur.[j, 0%nat]) - b.[i, 0%nat].
  Proof.
    intros p k A b HA Hb. induction rows; intros z0 w w' l Hz H.
    - simpl in H. apply mret_inv in H. destruct H as [-> _]. split; [reflexivity|]. split; intros; lia.
    - cbn [hr_walk] in H. apply mbind_ok in H. destruct H as ([d|] & w1 & E & H).
      + apply pick_dir_shape in E. apply mbind_ok in H. destruct H as (z1 & w2 & E1 & H). apply mbind_ok in H. destruct H as (rest & w3 & E2 & H). apply mret_inv in H. destruct H as [-> ->].
        destruct (hr_step_keeps p k A b z0 d w1 w2 z1 HA Hb Hz E E1) as [Sz K]. destruct (IHrows z1 w2 w3 rest Sz E2) as (IL & IS & IK).
        split; [simpl; lia|]. split.
        * intros [|r] Hr; [exact Sz|]. cbn [nth]. rewrite (nth_indep _ _ z1) by lia. apply IS. lia.
        * intros [|r] Hr; cbn [nth]; [right; exact K|]. specialize (IK r ltac:(lia)). cbv zeta in IK. cbn [nth] in IK |- *. rewrite (nth_indep rest z0 z1) by lia.
          destruct r; [exact IK|]. rewrite (nth_indep rest z0 z1) by lia. exact IK.
      + apply mret_inv in H. destruct H as [-> _]. split; [apply repeat_length|].
        assert (N : forall r, nth r (repeat z0 (S rows)) z0 = z0). { intros r. apply (nth_repeat z0 (S rows) r). }
        split; [intros r _; now rewrite N|]. intros r Hr. left. cbv zeta. rewrite N. destruct r; [reflexivity|]. cbn [nth]. symmetry. apply N.
  Qed.
End Step.

(** ** rejection sampling *)

Lemma mask_filter : forall (F : nat -> bool) l, mask_select l (map F l) = filter F l.
Proof. intros F. unfold mask_select. induction l as [|x l IH]; [reflexivity|]. cbn [map combine filter snd]. destruct (F x); cbn [map fst]; now rewrite IH. Qed.
Lemma bcast2_rcol : forall A B C (f : A -> B -> C) X Y r c, shape X = [r; c] -> shape Y = [r; 1%nat] ->
  exists Z, bcast2 f X Y = Ok Z /\ shape Z = [r; c] /\ forall i j, (i < r)%nat -> (j < c)%nat -> Z.[i, j] = f (X.[i, j]) (Y.[i, 0%nat]).
Proof.
  intros A B C f X Y r c HX HY. unfold bcast2. rewrite HX, HY.
  assert (E : bdim c 1 = Some c). { unfold bdim. destruct (Nat.eqb_spec c 1); reflexivity. }
  unfold bdim at 1. rewrite E, Nat.eqb_refl. eexists; split; [reflexivity|]. split; [reflexivity|]. intros i j Hi Hj.
  rewrite at_mk2, !(bidx_ok r), (bidx_ok c) by auto. reflexivity.
Qed.
Lemma npdot2_inv : forall X Y r k k' c D, shape X = [r; k] -> shape Y = [k'; c] -> npdot X Y = Ok D -> k' = k.
Proof.
  intros X Y r k k' c D HX HY H. unfold npdot in H. rewrite HX, HY in H. unfold mdot in H. rewrite HX, HY in H. destruct (Nat.eqb_spec k k'); [auto|discriminate].
Qed.

Section Rejection.
  Context {G : gen} {U L : Type}.
  Notation W := (world G U L).
  Variable B : backend.

  Lemma rejection_rows : forall m n N y W1 W2 (w w' : W) Z, shape W1 = [m; n] -> shape W2 = [m; (m - n)%nat] -> shape y = [n] ->
    rejection_sampling_z B N y W1 W2 w = (Ok (Some Z), w') ->
    exists Nn, N = Z.of_nat Nn /\ shape Z = [Nn; (m - n)%nat] /\
      forall r, (r < Nn)%nat -> inpoly W2 m (m - n) (fun i => sumf n (fun j => W1.[i, j] * y.[j])) (fun j => Z.[r, j]).
  Proof.
    intros m n N y W1 W2 w w' Z H1 H2 Hy H. unfold rejection_sampling_z in H. set (k := (m - n)%nat) in *.
    apply mbind_ok in H. destruct H as ([m' n'] & w1 & E & H). apply mlift_inv in E. destruct E as [E ->]. unfold shape2 in E. rewrite H1 in E. injection E as <- <-. fold k in H.
    apply mbind_ok in H. destruct H as (s & w1 & E & H). apply mlift_inv in E. destruct E as [E ->].
    destruct (shift_of_ok W1 y m n H1 Hy) as (s' & Es & Ss & Vs). rewrite Es in E. apply Ok_eq in E. subst s'.
    apply mbind_ok in H. destruct H as ([A b] & w1 & E & H). apply mlift_inv in E. destruct E as [E ->].
    destruct (polytope_pair W2 s m k H2 Ss) as (A' & b' & Ep & SA & Sb & Vp). rewrite Ep in E. injection E as -> ->.
    apply mbind_ok in H. destruct H as (u1 & w1 & _ & H).
    apply mbind_ok in H. destruct H as (box & w2 & _ & H).
    apply mbind_ok in H. destruct H as (bn & w3 & _ & H).
    apply mbind_ok in H. destruct H as (r & w4 & ER & H). apply mlift_inv in ER. destruct ER as [ER ->].
    assert (HN : (0 <= N)%Z). { unfold dimZ in ER. destruct (Z.ltb_spec (50 * N) 0); [discriminate|lia]. }
    apply mbind_ok in H. destruct H as (Zu & w4 & _ & H).
    apply mbind_ok in H. destruct H as (Zx & w5 & _ & H). set (Zb := amap fin Zx) in *.
    apply mbind_ok in H. destruct H as (AZ & w6 & EA & H). apply mlift_inv in EA. destruct EA as [EA ->].
    apply mbind_ok in H. destruct H as (ge & w6 & EG & H). apply mlift_inv in EG. destruct EG as [EG ->].
    assert (ST : shape (tr Zb) = [ncols Zb; nrows Zb]) by reflexivity.
    assert (NC := npdot2_inv A (tr Zb) (2 * m) k (ncols Zb) (nrows Zb) AZ SA ST EA). rewrite NC in ST.
    rewrite (npdot2 A (tr Zb) (2 * m) k (nrows Zb) SA ST) in EA. apply Ok_eq in EA. subst AZ.
    destruct (bcast2_rcol _ _ _ (fun a b => Rleb b a) (mk2 (2 * m) (nrows Zb) (fun i j => sumf k (fun l => A.[i, l] * (tr Zb).[l, j]))) b (2 * m) (nrows Zb) eq_refl Sb) as (ge' & Eg & Sg & Vg).
    rewrite Eg in EG. apply Ok_eq in EG. subst ge'. rewrite (nrows_shape2 _ ge _ _ Sg), (ncols_shape2 _ ge _ _ Sg) in H.
    rewrite mask_filter in H. set (keep := filter _ _) in H.
    destruct (Z.leb_spec N (Z.of_nat (List.length keep))) as [HK|HK]; [|apply mret_inv in H; destruct H; discriminate].
    apply mbind_ok in H. destruct H as (Zr & w7 & EZ & H). apply mret_inv in H. destruct H as [H ->]. injection H as ->. apply mlift_inv in EZ. destruct EZ as [EZ ->].
    exists (Z.to_nat N). set (Nn := Z.to_nat N) in *. split; [unfold Nn; lia|].
    assert (LK : List.length (firstn Nn keep) = Nn) by (apply firstn_length_le; unfold Nn; lia).
    assert (SF : shape (of_rows k (map (row1 Zb) (firstn Nn keep))) = [Nn; k]) by (unfold of_rows; cbn [shape mk2]; rewrite map_length, LK; reflexivity).
    rewrite <- SF in EZ. rewrite reshape_id in EZ. apply Ok_eq in EZ. subst Zr. split; [exact SF|].
    intros q Hq. unfold of_rows.
    assert (KI : In (nth q (firstn Nn keep) 0%nat) keep).
    { rewrite <- (firstn_skipn Nn keep) at 2. apply in_or_app. left. apply nth_In. lia. }
    set (j := nth q (firstn Nn keep) 0%nat) in *. unfold keep in KI. apply filter_In in KI. destruct KI as [K1 K2]. apply in_seq in K1.
    assert (VJ : forall c, (nth q (map (row1 Zb) (firstn Nn keep)) (mk1 k (fun _ => 0))).[c] = Zb.[j, c]).
    { intros c. rewrite (nth_indep _ _ (row1 Zb 0%nat)) by (rewrite map_length; lia). rewrite map_nth. reflexivity. }
    assert (PP : inpoly W2 m k (fun i => s.[i, 0%nat]) (fun c => Zb.[j, c])).
    { apply slack_poly. intros p Hp. rewrite <- Vp by auto. rewrite forallb_forall in K2.
      assert (K3 := K2 p ltac:(apply in_seq; lia)). rewrite Vg in K3 by (auto; lia). apply Rleb_spec in K3. rewrite at_mk2 in K3.
      change (fun l => A.[p, l] * (tr Zb).[l, j]) with (fun l => A.[p, l] * Zb.[j, l]) in K3. lra. }
    intros i Hi. specialize (PP i Hi). cbv beta in PP |- *. rewrite Vs in PP by auto.
    rewrite (sumf_ext k _ (fun c => W2.[i, c] * Zb.[j, c])); [exact PP|]. intros c Hc. rewrite at_mk2, VJ. reflexivity.
  Qed.
End Rejection.

(** ** the Chebyshev centre *)

Definition rownorm (W2 : nd R) (k i : nat) : R := sqrt (sumf k (fun j => W2.[i, j] * W2.[i, j])).
(** the constraints of the linear program: x_k is the radius *)
Definition cheb (W2 : nd R) (m k : nat) (s x : nat -> R) : Prop :=
  forall r, (r < 2 * m)%nat -> x k * rownorm W2 k (if Nat.ltb r m then r else r - m) <= slack W2 m k s x r.

Section Chebyshev.
  Context {G : gen} {U L : Type}.
  Notation W := (world G U L).
  Variable B : backend.

  Lemma chebyshev_posed : forall m n y W1 W2, (n <= m)%nat -> shape W1 = [m; n] -> shape W2 = [m; (m - n)%nat] -> shape y = [n] ->
    let k := (m - n)%nat in exists c A b, shape c = [(k + 1)%nat; 1%nat] /\ shape A = [(2 * m)%nat; (k + 1)%nat] /\ shape b = [(2 * m)%nat; 1%nat] /\
      (forall x, lin_obj c (k + 1) x = - x k) /\
      (forall x, doc_ineq A b (2 * m) (k + 1) x <-> cheb W2 m k (fun i => sumf n (fun j => W1.[i, j] * y.[j])) x) /\
      forall w : W, chebyshev_start B y W1 W2 w =
        mbind (linear_program_ineq B (qp_init B "GUROBI") c A b) (fun zc => mlift (reshape [k; 1%nat] (rows_slice zc 0 (nrows zc - 1)))) w.
  Proof.
    intros m n y W1 W2 Hn H1 H2 Hy k.
    destruct (shift_of_ok W1 y m n H1 Hy) as (s & Es & Ss & Vs).
    set (nv := mk1 (nrows W2) (fun i => sqrt (sumf (ncols W2) (fun j => (W2.[i, j]) ^ 2)))).
    destruct (flat_col nv m) as (nw & En & Sn & Vn); [unfold nv; cbn [shape mk1]; now rewrite (nrows_shape2 _ W2 _ _ H2)|].
    assert (VN : forall i, (i < m)%nat -> nw.[i, 0%nat] = rownorm W2 k i).
    { intros i Hi. rewrite Vn by auto. unfold nv. rewrite at_mk1. unfold rownorm. f_equal. rewrite (ncols_shape2 _ W2 _ _ H2). fold k. apply sumf_ext. intros; ring. }
    unfold chebyshev_start.
    set (A1 := mk2 (m + m) k (fun i j => if Nat.ltb i m then W2.[i, j] else (amap Ropp W2).[(i - m)%nat, j])).
    set (A2 := mk2 (m + m) 1 (fun i j => if Nat.ltb i m then nw.[i, j] else nw.[(i - m)%nat, j])).
    set (A := mk2 (m + m) (k + 1) (fun i j => if Nat.ltb j k then A1.[i, j] else A2.[i, (j - k)%nat])).
    set (b0 := mk2 (m + m) 1 (fun i j => if Nat.ltb i m then (amap (fun x => 1 - x) s).[i, j] else (amap (fun x => 1 + x) s).[(i - m)%nat, j])).
    assert (EA1 : vstack W2 (amap Ropp W2) = Ok A1) by (unfold vstack; cbn [shape amap]; rewrite H2; fold k; rewrite Nat.eqb_refl; reflexivity).
    assert (EA2 : vstack nw nw = Ok A2) by (unfold vstack; rewrite Sn; rewrite Nat.eqb_refl; reflexivity).
    assert (EA : hstack A1 A2 = Ok A) by (unfold hstack; cbn [shape A1 A2 mk2]; rewrite Nat.eqb_refl; reflexivity).
    assert (Eb : vstack (amap (fun x => 1 - x) s) (amap (fun x => 1 + x) s) = Ok b0) by (unfold vstack; cbn [shape amap]; rewrite Ss; rewrite Nat.eqb_refl; reflexivity).
    assert (E2m : (m + m = 2 * m)%nat) by lia.
    assert (Er : reshape [(2 * m)%nat; 1%nat] b0 = Ok b0) by (rewrite <- E2m; exact (reshape_id _ b0)).
    exists (unit_col (k + 1) k (-1)), (amap Ropp A), (amap Ropp b0).
    split; [reflexivity|]. split; [cbn [shape amap A mk2]; now rewrite E2m|]. split; [cbn [shape amap b0 mk2]; now rewrite E2m|]. split; [|split].
    - intros x. unfold lin_obj, unit_col. rewrite (sumf_single _ k) by (try lia; intros j Hj Hk; rewrite at_mk2, (proj2 (Nat.eqb_neq j k) Hk); ring).
      rewrite at_mk2, Nat.eqb_refl. ring.
    - assert (VA : forall x i, (i < m)%nat ->
          sumf (k + 1) (fun j => (amap Ropp A).[i, j] * x j) - (amap Ropp b0).[i, 0%nat] = slack W2 m k (fun i => sumf n (fun j => W1.[i, j] * y.[j])) x (m + i) - x k * rownorm W2 k i /\
          sumf (k + 1) (fun j => (amap Ropp A).[(m + i)%nat, j] * x j) - (amap Ropp b0).[(m + i)%nat, 0%nat] = slack W2 m k (fun i => sumf n (fun j => W1.[i, j] * y.[j])) x i - x k * rownorm W2 k i).
      { intros x i Hi.
        assert (G0 : forall r, sumf (k + 1) (fun j => (amap Ropp A).[r, j] * x j) - (amap Ropp b0).[r, 0%nat] = - sumf k (fun j => A1.[r, j] * x j) - A2.[r, 0%nat] * x k + b0.[r, 0%nat]).
        { intros r. rewrite sumf_split. cbn [sumf]. change ((amap Ropp b0).[r, 0%nat]) with (- b0.[r, 0%nat]).
          rewrite (sumf_ext k _ (fun j => - (A1.[r, j] * x j))).
          2: { intros j Hj. change ((amap Ropp A).[r, j]) with (- A.[r, j]). unfold A. rewrite at_mk2. destruct (Nat.ltb_spec j k); [ring|lia]. }
          change ((amap Ropp A).[r, (k + 0)%nat]) with (- A.[r, (k + 0)%nat]). unfold A. rewrite at_mk2. destruct (Nat.ltb_spec (k + 0) k); [lia|].
          replace (k + 0 - k)%nat with 0%nat by lia. replace (k + 0)%nat with k by lia. rewrite sumf_opp. ring. }
        split.
        - rewrite G0. unfold slack. destruct (Nat.ltb_spec (m + i) m); [lia|]. replace (m + i - m)%nat with i by lia.
          rewrite (sumf_ext k (fun j => A1.[i, j] * x j) (fun j => W2.[i, j] * x j)) by (intros j Hj; unfold A1; rewrite at_mk2; destruct (Nat.ltb_spec i m); [reflexivity|lia]).
          unfold A2, b0. rewrite !at_mk2. destruct (Nat.ltb_spec i m); [|lia].
          change ((amap (fun x => 1 - x) s).[i, 0%nat]) with (1 - s.[i, 0%nat]). rewrite Vs, VN by auto. ring.
        - rewrite G0. unfold slack. destruct (Nat.ltb_spec i m); [|lia].
          rewrite (sumf_ext k (fun j => A1.[(m + i)%nat, j] * x j) (fun j => - (W2.[i, j] * x j))).
          2: { intros j Hj. unfold A1. rewrite at_mk2. destruct (Nat.ltb_spec (m + i) m); [lia|]. replace (m + i - m)%nat with i by lia. change ((amap Ropp W2).[i, j]) with (- W2.[i, j]). ring. }
          unfold A2, b0. rewrite !at_mk2. destruct (Nat.ltb_spec (m + i) m); [lia|]. replace (m + i - m)%nat with i by lia.
          change ((amap (fun x => 1 + x) s).[i, 0%nat]) with (1 + s.[i, 0%nat]). rewrite Vs, VN, sumf_opp by auto. ring. }
      intros x. unfold doc_ineq, cheb. split; intros H r Hr.
      + destruct (Nat.ltb_spec r m).
        * assert (K := H (m + r)%nat ltac:(lia)). destruct (VA x r ltac:(lia)) as [_ V]. lra.
        * assert (K := H (r - m)%nat ltac:(lia)). destruct (VA x (r - m)%nat ltac:(lia)) as [V _]. replace (m + (r - m))%nat with r in V by lia. lra.
      + destruct (Nat.lt_ge_cases r m).
        * assert (K := H (m + r)%nat ltac:(lia)). destruct (Nat.ltb_spec (m + r) m); [lia|]. replace (m + r - m)%nat with r in K by lia. destruct (VA x r ltac:(lia)) as [V _]. lra.
        * assert (K := H (r - m)%nat ltac:(lia)). destruct (Nat.ltb_spec (r - m) m); [|lia]. destruct (VA x (r - m)%nat ltac:(lia)) as [_ V]. replace (m + (r - m))%nat with r in V by lia. lra.
    - intros w. unfold mbind, mlift. unfold shape2. rewrite H1. fold k. rewrite Es. fold nv. rewrite En, EA1, EA2, EA, Eb, Er.
      rewrite (proj2 (Nat.leb_le n m) Hn). reflexivity.
  Qed.

  (** an answer of the linear program becomes the start *)
  Lemma chebyshev_inv : forall m n y W1 W2 (w w' : W) z0, (n <= m)%nat -> shape W1 = [m; n] -> shape W2 = [m; (m - n)%nat] -> shape y = [n] ->
    linprog_ok (linprog B) -> gurobi_ok (gurobi B) -> chebyshev_start B y W1 W2 w = (Ok z0, w') ->
    let k := (m - n)%nat in let s := fun i => sumf n (fun j => W1.[i, j] * y.[j]) in
    w' = w /\ shape z0 = [k; 1%nat] /\ exists r, cheb W2 m k s (fun j => if Nat.eqb j k then r else z0.[j, 0%nat]) /\ forall x, cheb W2 m k s x -> x k <= r.
  Proof.
    intros m n y W1 W2 w w' z0 Hn H1 H2 Hy HL HG H k s.
    destruct (chebyshev_posed m n y W1 W2 Hn H1 H2 Hy) as (c & A & b & Sc & SA & Sb & OB & FE & EQ). fold k in Sc, SA, Sb, OB, FE, EQ. fold s in FE. rewrite EQ in H.
    apply mbind_ok in H. destruct H as (zc & w1 & E & H). apply mlift_inv in H. destruct H as [H ->].
    set (lbv := zeros2 (k + 1) 1).
    destruct (proj2 (C51_linear_programs_solved (G := G) (U := U) (L := L) B "GUROBI" (2 * m) (k + 1) c A b lbv lbv w w1 zc HL HG Sc SA Sb eq_refl eq_refl) E) as [(Sz & Fz & Oz) ->].
    split; auto. rewrite (nrows_shape2 _ zc _ _ Sz) in H. replace (k + 1 - 1)%nat with k in H by lia.
    assert (SR : shape (rows_slice zc 0 k) = [k; 1%nat]).
    { unfold rows_slice. cbn [shape mk2]. rewrite (nrows_shape2 _ zc _ _ Sz), (ncols_shape2 _ zc _ _ Sz). f_equal. lia. }
    rewrite <- SR in H. rewrite reshape_id in H. apply Ok_eq in H. subst z0. split; auto.
    exists (zc.[k, 0%nat]). split.
    - apply FE in Fz. intros r Hr. specialize (Fz r Hr). rewrite Nat.eqb_refl. eapply Rle_trans; [exact Fz|]. right. unfold slack.
      assert (Q : forall i, sumf k (fun j => W2.[i, j] * zc.[j, 0%nat]) = sumf k (fun j => W2.[i, j] * (if Nat.eqb j k then zc.[k, 0%nat] else (rows_slice zc 0 k).[j, 0%nat]))).
      { intros i. apply sumf_ext. intros j Hj. rewrite (proj2 (Nat.eqb_neq j k)) by lia. reflexivity. }
      destruct (Nat.ltb r m); rewrite Q; reflexivity.
    - intros x Hx. apply FE in Hx. specialize (Oz x Hx). rewrite !OB in Oz. lra.
  Qed.
End Chebyshev.

(** ** inscribed balls *)

Definition dist2le (k : nat) (u : nat -> R) (rho : R) : Prop := 0 <= rho /\ sumf k (fun j => u j * u j) <= rho * rho.
(** the ball of radius rho around z lies in the polytope *)
Definition ball_in (W2 : nd R) (m k : nat) (s z : nat -> R) (rho : R) : Prop :=
  forall u, dist2le k u rho -> inpoly W2 m k s (fun j => z j + u j).

Lemma rownorm_sq : forall W2 k i, rownorm W2 k i * rownorm W2 k i = sumf k (fun j => W2.[i, j] * W2.[i, j]).
Proof. intros. unfold rownorm. apply sqrt_sqrt. apply sumf_sq_nonneg. Qed.
Lemma rownorm_pos : forall W2 k i, 0 <= rownorm W2 k i.
Proof. intros. apply sqrt_pos. Qed.

Lemma cauchy_schwarz : forall k (a b : nat -> R), (sumf k (fun j => a j * b j)) * (sumf k (fun j => a j * b j)) <= sumf k (fun j => a j * a j) * sumf k (fun j => b j * b j).
Proof.
  intros k a b. set (p := sumf k (fun j => a j * b j)). set (A := sumf k (fun j => a j * a j)). set (C := sumf k (fun j => b j * b j)).
  assert (Q : forall t, 0 <= A * (t * t) + 2 * p * t + C).
  { intros t. replace (A * (t * t) + 2 * p * t + C) with (sumf k (fun j => (t * a j + b j) * (t * a j + b j))); [apply sumf_sq_nonneg|].
    unfold A, p, C. rewrite (sumf_ext k _ (fun j => t * t * (a j * a j) + (2 * t * (a j * b j) + b j * b j))) by (intros; ring).
    rewrite !sumf_plus, !sumf_scal_l. ring. }
  assert (A0 : 0 <= A) by apply sumf_sq_nonneg.
  destruct (Req_EM_T A 0) as [Z|Z].
  - assert (p = 0). { unfold p. apply sumf_zero. intros j Hj. rewrite (sumf_sq_eq0 k a Z j Hj). ring. } nra.
  - specialize (Q (- p / A)). replace (A * (- p / A * (- p / A)) + 2 * p * (- p / A) + C) with ((A * C - p * p) * / A) in Q by (field; auto).
    assert (0 < A) by lra. assert (I : 0 < / A) by (apply Rinv_0_lt_compat; auto).
    destruct (Rle_lt_dec (p * p) (A * C)); auto. exfalso. nra.
Qed.
Lemma dot_ball : forall k (a u : nat -> R) rho N, 0 <= N -> N * N = sumf k (fun j => a j * a j) -> dist2le k u rho -> - (rho * N) <= sumf k (fun j => a j * u j) <= rho * N.
Proof.
  intros k a u rho N HN EN [HR HU]. assert (C := cauchy_schwarz k a u). rewrite <- EN in C.
  set (p := sumf k (fun j => a j * u j)) in *. set (q := sumf k (fun j => u j * u j)) in *.
  assert (P2 : p * p <= (rho * N) * (rho * N)) by nra. assert (0 <= rho * N) by nra. split; apply Rnot_lt_le; intros X; nra.
Qed.

Lemma cheb_ball : forall W2 m k s z rho, 0 <= rho ->
  (cheb W2 m k s (fun j => if Nat.eqb j k then rho else z j) <-> ball_in W2 m k s z rho).
Proof.
  intros W2 m k s z rho HR.
  assert (SL : forall r, slack W2 m k s (fun j => if Nat.eqb j k then rho else z j) r = slack W2 m k s z r).
  { intros r. assert (Q : forall i, sumf k (fun j => W2.[i, j] * (if Nat.eqb j k then rho else z j)) = sumf k (fun j => W2.[i, j] * z j)).
    { intros i. apply sumf_ext. intros j Hj. now rewrite (proj2 (Nat.eqb_neq j k)) by lia. }
    unfold slack. destruct (Nat.ltb r m); now rewrite Q. }
  unfold cheb, ball_in. split; intros H.
  - intros u Hu i Hi. assert (A1 := H i ltac:(lia)). assert (A2 := H (m + i)%nat ltac:(lia)). rewrite Nat.eqb_refl, SL in A1, A2. unfold slack in A1, A2.
    destruct (Nat.ltb_spec i m); [|lia]. destruct (Nat.ltb_spec (m + i) m); [lia|]. replace (m + i - m)%nat with i in A2 by lia.
    assert (D := dot_ball k (fun j => W2.[i, j]) u rho (rownorm W2 k i) (rownorm_pos W2 k i) (rownorm_sq W2 k i) Hu).
    rewrite (sumf_ext k (fun j => W2.[i, j] * (z j + u j)) (fun j => W2.[i, j] * z j + W2.[i, j] * u j)) by (intros; ring). rewrite sumf_plus. lra.
  - intros r Hr. rewrite Nat.eqb_refl, SL. set (i := if Nat.ltb r m then r else (r - m)%nat).
    assert (Hi : (i < m)%nat) by (unfold i; destruct (Nat.ltb_spec r m); lia).
    assert (N0 := rownorm_pos W2 k i). assert (NS := rownorm_sq W2 k i). set (nn := rownorm W2 k i) in *.
    (* the extreme points of the ball in the directions of row i *)
    assert (K : forall sg, sg * sg = 1 -> -1 <= s i + sumf k (fun j => W2.[i, j] * z j) + sg * (rho * nn) <= 1).
    { intros sg Hs. set (t := if Req_EM_T nn 0 then 0 else sg * rho * / nn).
      assert (T : dist2le k (fun j => t * W2.[i, j]) rho).
      { split; auto. rewrite (sumf_ext k _ (fun j => t * t * (W2.[i, j] * W2.[i, j]))) by (intros; ring). rewrite sumf_scal_l, <- NS. unfold t. destruct (Req_EM_T nn 0) as [Z|Z].
        - rewrite Z. nra.
        - right. replace (sg * rho * / nn * (sg * rho * / nn) * (nn * nn)) with (sg * sg * (rho * rho)) by (field; auto). rewrite Hs. ring. }
      assert (P := H _ T i Hi). cbv beta in P.
      rewrite (sumf_ext k (fun j => W2.[i, j] * (z j + t * W2.[i, j])) (fun j => W2.[i, j] * z j + t * (W2.[i, j] * W2.[i, j]))) in P by (intros; ring).
      rewrite sumf_plus, sumf_scal_l, <- NS in P. replace (sg * (rho * nn)) with (t * (nn * nn)); [lra|]. unfold t. destruct (Req_EM_T nn 0) as [Z|Z]; [rewrite Z; ring|field; auto]. }
    assert (K1 := K 1 ltac:(ring)). assert (K2 := K (-1) ltac:(ring)). unfold slack. subst nn. unfold i in K1, K2 |- *. destruct (Nat.ltb r m); lra.
Qed.

(** ** the random walk *)
Section Walk.
  Context {G : gen} {U L : Type}.
  Notation W := (world G U L).

  Lemma all2_spec : forall X r c, shape X = [r; c] -> (all2 X = true <-> forall i j, (i < r)%nat -> (j < c)%nat -> X.[i, j] = true).
  Proof.
    intros X r c H. unfold all2. rewrite (nrows_shape2 _ X _ _ H), (ncols_shape2 _ X _ _ H). rewrite forallb_forall. split.
    - intros K i j Hi Hj. specialize (K i ltac:(apply in_seq; lia)). rewrite forallb_forall in K. apply K. apply in_seq. lia.
    - intros K i Hi. apply in_seq in Hi. rewrite forallb_forall. intros j Hj. apply in_seq in Hj. apply K; lia.
  Qed.
  Lemma in_polytope_ok : forall m k W2 s z, shape W2 = [m; k] -> shape s = [m; 1%nat] -> shape z = [k; 1%nat] ->
    exists ok, in_polytope W2 s z = Ok ok /\ (ok = true <-> inpoly W2 m k (fun i => s.[i, 0%nat]) (fun j => z.[j, 0%nat])).
  Proof.
    intros m k W2 s z H2 Hs Hz. unfold in_polytope. rewrite (npdot2 W2 z m k 1 H2 Hz). cbn [rbind].
    destruct (bcast2_same _ _ _ Rleb (mk2 m 1 (fun i j => sumf k (fun l => W2.[i, l] * z.[l, j]))) (amap (fun x => 1 - x) s) m 1 eq_refl Hs) as (le & E1 & S1 & V1).
    destruct (bcast2_same _ _ _ (fun a b => Rleb b a) (mk2 m 1 (fun i j => sumf k (fun l => W2.[i, l] * z.[l, j]))) (amap (fun x => -1 - x) s) m 1 eq_refl Hs) as (ge & E2 & S2 & V2).
    rewrite E1. cbn [rbind]. rewrite E2. cbn [rbind]. eexists. split; [reflexivity|].
    rewrite andb_true_iff, (all2_spec le m 1 S1), (all2_spec ge m 1 S2). unfold inpoly. split.
    - intros [A1 A2] i Hi. specialize (A1 i 0%nat Hi ltac:(lia)). specialize (A2 i 0%nat Hi ltac:(lia)). rewrite V1 in A1 by lia. rewrite V2 in A2 by lia.
      apply Rleb_spec in A1. apply Rleb_spec in A2. rewrite at_mk2 in A1, A2. change ((amap (fun x => 1 - x) s).[i, 0%nat]) with (1 - s.[i, 0%nat]) in A1.
      change ((amap (fun x => -1 - x) s).[i, 0%nat]) with (-1 - s.[i, 0%nat]) in A2. lra.
    - intros H. split; intros i j Hi Hj; assert (j = 0%nat) by lia; subst j; specialize (H i Hi).
      + rewrite V1 by lia. apply Rleb_spec. rewrite at_mk2. change ((amap (fun x => 1 - x) s).[i, 0%nat]) with (1 - s.[i, 0%nat]). lra.
      + rewrite V2 by lia. apply Rleb_spec. rewrite at_mk2. change ((amap (fun x => -1 - x) s).[i, 0%nat]) with (-1 - s.[i, 0%nat]). lra.
  Qed.

  (** a step is a proposal, kept when feasible; otherwise the old point *)
  Lemma rw_step_ok : forall m k W2 s sig z0 (w : W), shape W2 = [m; k] -> shape s = [m; 1%nat] -> shape z0 = [k; 1%nat] ->
    exists z1 w', rw_step W2 s sig z0 w = (Ok z1, w') /\ shape z1 = [k; 1%nat] /\ (z1 = z0 \/ inpoly W2 m k (fun i => s.[i, 0%nat]) (fun j => z1.[j, 0%nat])).
  Proof.
    intros m k W2 s sig z0 w H2 Hs Hz. unfold rw_step. rewrite (nrows_shape2 _ z0 _ _ Hz), (ncols_shape2 _ z0 _ _ Hz).
    unfold normal2. unfold mbind at 1 2. 
    assert (K : forall c (w : W), exists l w', repeatM c draw_normal w = (Ok l, w')).
    { induction c; intros w0; cbn [repeatM]; [eexists; eexists; reflexivity|]. unfold mbind at 1, draw_normal at 1. destruct (g_normal G (rng w0)) as [x s1].
      unfold mbind. destruct (IHc (set_rng w0 s1)) as (l & w' & ->). eexists; eexists; reflexivity. }
    destruct (K (k * 1)%nat w) as (l & w' & ->). cbn [mret]. set (d := mk2 k 1 _). unfold mbind, mlift.
    destruct (bcast2_same _ _ _ Rplus z0 (amap (Rmult sig) d) k 1 Hz eq_refl) as (zc & E & S & V). rewrite E.
    destruct (in_polytope_ok m k W2 s zc H2 Hs S) as (ok & E' & P). rewrite E'. unfold mret. exists (if ok then zc else z0), w'. split; auto.
    destruct ok; [split; [auto|right; now apply P]|split; auto].
  Qed.
  Lemma rw_burn_ok : forall m k W2 s sig l z0 (w : W), shape W2 = [m; k] -> shape s = [m; 1%nat] -> shape z0 = [k; 1%nat] ->
    inpoly W2 m k (fun i => s.[i, 0%nat]) (fun j => z0.[j, 0%nat]) ->
    exists z1 w', mfold (fun z (_ : nat) => rw_step W2 s sig z) z0 l w = (Ok z1, w') /\ shape z1 = [k; 1%nat] /\ inpoly W2 m k (fun i => s.[i, 0%nat]) (fun j => z1.[j, 0%nat]).
  Proof.
    intros m k W2 s sig. induction l as [|x l IH]; intros z0 w H2 Hs Hz HP; cbn [mfold]; [exists z0, w; split; auto|].
    destruct (rw_step_ok m k W2 s sig z0 w H2 Hs Hz) as (z1 & w1 & E & S & P). unfold mbind. rewrite E. apply IH; auto. destruct P as [->|P]; auto.
  Qed.
  Lemma rw_walk_ok : forall m k W2 s sig cols z0 (w : W), shape W2 = [m; k] -> shape s = [m; 1%nat] -> shape z0 = [k; 1%nat] ->
    inpoly W2 m k (fun i => s.[i, 0%nat]) (fun j => z0.[j, 0%nat]) ->
    exists l w', rw_walk W2 s sig z0 cols w = (Ok l, w') /\ List.length l = cols /\
      forall z, In z l -> shape z = [k; 1%nat] /\ inpoly W2 m k (fun i => s.[i, 0%nat]) (fun j => z.[j, 0%nat]).
  Proof.
    intros m k W2 s sig. induction cols; intros z0 w H2 Hs Hz HP; cbn [rw_walk]; [exists [], w; split; [reflexivity|]; split; [reflexivity|intros z []]|].
    destruct (rw_step_ok m k W2 s sig z0 w H2 Hs Hz) as (z1 & w1 & E & S & P). unfold mbind. rewrite E.
    assert (P' : inpoly W2 m k (fun i => s.[i, 0%nat]) (fun j => z1.[j, 0%nat])) by (destruct P as [->|P]; auto).
    destruct (IHcols z1 w1 H2 Hs S P') as (l & w2 & E2 & L2 & K2). rewrite E2. unfold mret. exists (z1 :: l), w2. split; auto. split; [simpl; lia|].
    intros z [<-|Hz']; auto.
  Qed.
End Walk.
