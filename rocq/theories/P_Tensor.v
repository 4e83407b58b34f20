(** Tensor product rules, utils/quadrature.py 248-332 *)
From Coq Require Import String Reals Lra Lia List Arith ZArith Bool.
From Verif Require Import Prelude Py NumArr M_Misc M_RespSurf M_Quadrature.
Import ListNotations.
Open Scope R_scope.

(** row number of an index combination: first index slowest *)
Definition horner (ns ix : list nat) : nat := fold_left (fun a p => (a * fst p + snd p)%nat) (combine ns ix) 0%nat.

Definition nd0 : nd R * nd R := (zeros2 0 0, zeros2 0 0).
Definition nodes_of (Rl : list (nd R * nd R)) (k i : nat) : R := (fst (nth k Rl nd0)).[i, 0%nat].
Definition weights_of (Rl : list (nd R * nd R)) (k i : nat) : R := (snd (nth k Rl nd0)).[i, 0%nat].
Definition count_of (p : nd R * nd R) : nat := nrows (fst p).

Lemma prodn_app : forall a b, prodn (a ++ b) = (prodn a * prodn b)%nat.
Proof. induction a; intros; simpl; [lia|]. rewrite IHa. lia. Qed.
Lemma combine_snoc : forall A B (a : list A) (b : list B) x y, List.length a = List.length b ->
  combine (a ++ [x]) (b ++ [y]) = combine a b ++ [(x, y)].
Proof. induction a; intros [|y0 b] x y H; simpl in *; try discriminate; auto. f_equal. apply IHa. lia. Qed.
Lemma horner_snoc : forall ns ix n i, List.length ix = List.length ns -> horner (ns ++ [n]) (ix ++ [i]) = (horner ns ix * n + i)%nat.
Proof. intros. unfold horner. rewrite combine_snoc by auto. rewrite fold_left_app. reflexivity. Qed.
Lemma prodf_ext : forall n f g, (forall i, (i < n)%nat -> f i = g i) -> prodf n f = prodf n g.
Proof. induction n; intros f g H; simpl; auto. rewrite (IHn f g), H by auto. reflexivity. Qed.

(** horner numbers the index combinations 0 .. prod-1, each once *)
Lemma Forall2_len : forall A B (P : A -> B -> Prop) a b, Forall2 P a b -> List.length a = List.length b.
Proof. intros A B P a b H. induction H; simpl; auto. Qed.
Lemma horner_lt : forall ns ix, Forall2 lt ix ns -> (horner ns ix < prodn ns)%nat.
Proof.
  intros ns. induction ns as [|n ns IH] using rev_ind; intros ix H.
  - inversion H; subst. unfold horner. simpl. lia.
  - apply Forall2_app_inv_r in H. destruct H as (a & b & H1 & H2 & ->). inversion H2 as [|i n' b' ns' Hi Hb]; subst. inversion Hb; subst.
    rewrite horner_snoc by (apply (Forall2_len _ _ _ _ _ H1)). rewrite prodn_app. simpl prodn. specialize (IH a H1). nia.
Qed.
Lemma horner_onto : forall ns r, (r < prodn ns)%nat -> exists ix, Forall2 lt ix ns /\ horner ns ix = r.
Proof.
  intros ns. induction ns as [|n ns IH] using rev_ind; intros r H.
  - simpl in H. exists []. split; auto. unfold horner. simpl. lia.
  - rewrite prodn_app in H. simpl prodn in H. rewrite Nat.mul_1_r in H.
    assert (Hn : n <> 0%nat) by (intros ->; lia).
    destruct (IH (r / n)%nat) as (ix & F & E); [now apply div_lt_prod|].
    exists (ix ++ [(r mod n)%nat]). split.
    + apply Forall2_app; auto. constructor; auto. apply Nat.mod_upper_bound; auto.
    + rewrite horner_snoc by (apply (Forall2_len _ _ _ _ _ F)). rewrite E. rewrite (Nat.div_mod r n Hn) at 3. lia.
Qed.
Lemma horner_inj : forall ns ix iy, Forall2 lt ix ns -> Forall2 lt iy ns -> horner ns ix = horner ns iy -> ix = iy.
Proof.
  intros ns. induction ns as [|n ns IH] using rev_ind; intros ix iy H K E.
  - inversion H; inversion K; auto.
  - apply Forall2_app_inv_r in H. destruct H as (a & b & H1 & H2 & ->). inversion H2 as [|i n' b' ns' Hi Hb]; subst. inversion Hb; subst.
    apply Forall2_app_inv_r in K. destruct K as (a' & b' & K1 & K2 & ->). inversion K2 as [|i' n' b'' ns'' Hi' Hb']; subst. inversion Hb'; subst.
    rewrite !horner_snoc in E by (eapply Forall2_len; eauto).
    assert (Q : horner ns a = horner ns a').
    { rewrite <- (div_add_lt (horner ns a) i n Hi), E. now apply div_add_lt. }
    assert (Q2 : i = i') by nia. rewrite (IH a a' H1 K1 Q), Q2. reflexivity.
Qed.

Definition rule_ok (rule : Z -> res (nd R * nd R)) (n : Z) (p : nd R * nd R) : Prop :=
  rule n = Ok p /\ shape (fst p) = [count_of p; 1%nat] /\ shape (snd p) = [count_of p; 1%nat].

Lemma tensor_loop : forall rule l Rl, Forall2 (rule_ok rule) l Rl ->
  let ns := map count_of Rl in let d := List.length Rl in
  exists x w, fold_left (tensor_step rule) l (Ok (ones2 1 1, ones2 1 1)) = Ok (x, w) /\
    shape x = [prodn ns; S d] /\ shape w = [prodn ns; 1%nat] /\
    (forall ix, Forall2 lt ix ns ->
       (forall k, (k < d)%nat -> x.[horner ns ix, S k] = nodes_of Rl k (nth k ix 0%nat)) /\
       w.[horner ns ix, 0%nat] = prodf d (fun k => weights_of Rl k (nth k ix 0%nat))) /\
    (forall f : nat -> R -> R,
       sumf (prodn ns) (fun r => w.[r, 0%nat] * prodf d (fun k => f k (x.[r, S k])))
       = prodf d (fun k => sumf (nth k ns 0%nat) (fun i => weights_of Rl k i * f k (nodes_of Rl k i)))).
Proof.
  intros rule l. induction l as [|n l IH] using rev_ind; intros Rl H.
  - inversion H; subst. cbv zeta. exists (ones2 1 1), (ones2 1 1). split; [reflexivity|]. split; [reflexivity|]. split; [reflexivity|]. split.
    + intros ix F. inversion F; subst. split; [intros; simpl in *; lia|]. reflexivity.
    + intros f. simpl. ring.
  - apply Forall2_app_inv_l in H. destruct H as (Ra & Rb & H1 & H2 & ->). inversion H2 as [|n' p l' Rb' Hp Hb]; subst. inversion Hb; subst. clear H2 Hb.
    destruct p as [xi wi]. destruct Hp as (Er & Sx & Sw). set (c := count_of (xi, wi)) in *. cbn [fst snd] in Sx, Sw.
    destruct (IH Ra H1) as (x & w & EF & SX & SW & HI & HS). cbv zeta in *.
    set (ns := map count_of Ra) in *. set (d := List.length Ra) in *. set (P := prodn ns) in *.
    rewrite fold_left_app. cbn [fold_left]. rewrite EF. unfold tensor_step. cbn [rbind]. rewrite Er. cbn [rbind].
    unfold hstack. cbn [shape kron mk2].
    rewrite (nrows_shape2 _ x P (S d) SX), (ncols_shape2 _ x P (S d) SX), (nrows_shape2 _ xi c 1 Sx), (ncols_shape2 _ xi c 1 Sx).
    change (nrows (ones2 c 1)) with c. change (ncols (ones2 c 1)) with 1%nat. change (nrows (ones2 P 1)) with P. change (ncols (ones2 P 1)) with 1%nat.
    rewrite Nat.eqb_refl. cbn [rbind].
    rewrite map_app. cbn [map]. fold ns. change (count_of (xi, wi)) with c.
    rewrite !app_length. cbn [List.length]. fold d.
    set (x' := mk2 (P * c) (S d * 1 + 1 * 1) _). set (w' := kron w wi).
    assert (EX0 : forall q i k, (i < c)%nat -> (k < S d)%nat -> x'.[(q * c + i)%nat, k] = x.[q, k]).
    { intros q i k Hi Hk. unfold x', kron. rewrite !at_mk2. destruct (Nat.ltb_spec k (S d * 1)); [|lia].
      change (nrows (ones2 c 1)) with c. change (ncols (ones2 c 1)) with 1%nat.
      rewrite div_add_lt, Nat.div_1_r by auto. unfold ones2. rewrite at_mk2. ring. }
    assert (EX1 : forall q i, (i < c)%nat -> x'.[(q * c + i)%nat, S d] = xi.[i, 0%nat]).
    { intros q i Hi. unfold x', kron. rewrite !at_mk2. destruct (Nat.ltb_spec (S d) (S d * 1)); [lia|].
      rewrite (nrows_shape2 _ xi c 1 Sx), (ncols_shape2 _ xi c 1 Sx).
      rewrite mod_add_lt by auto. unfold ones2. rewrite at_mk2. rewrite Nat.mod_1_r. ring. }
    assert (EW : forall q i, (i < c)%nat -> w'.[(q * c + i)%nat, 0%nat] = w.[q, 0%nat] * wi.[i, 0%nat]).
    { intros q i Hi. unfold w', kron. rewrite at_mk2. rewrite (nrows_shape2 _ wi c 1 Sw), (ncols_shape2 _ wi c 1 Sw).
      rewrite div_add_lt, mod_add_lt by auto. rewrite Nat.div_1_r, Nat.mod_1_r. reflexivity. }
    assert (NO : forall k i, (k < d)%nat -> nodes_of (Ra ++ [(xi, wi)]) k i = nodes_of Ra k i) by (intros; unfold nodes_of; now rewrite app_nth1).
    assert (WO : forall k i, (k < d)%nat -> weights_of (Ra ++ [(xi, wi)]) k i = weights_of Ra k i) by (intros; unfold weights_of; now rewrite app_nth1).
    assert (ND : forall i, nodes_of (Ra ++ [(xi, wi)]) d i = xi.[i, 0%nat]) by (intros; unfold nodes_of, d; now rewrite nth_middle).
    assert (WD : forall i, weights_of (Ra ++ [(xi, wi)]) d i = wi.[i, 0%nat]) by (intros; unfold weights_of, d; now rewrite nth_middle).
    exists x', w'. rewrite prodn_app. simpl prodn. rewrite Nat.mul_1_r. fold P.
    split; [reflexivity|]. split; [unfold x'; simpl; f_equal; f_equal; lia|].
    split; [unfold w', kron; simpl; rewrite (nrows_shape2 _ wi c 1 Sw), (ncols_shape2 _ wi c 1 Sw), (nrows_shape2 _ w P 1 SW), (ncols_shape2 _ w P 1 SW); reflexivity|].
    replace (d + 1)%nat with (S d) by lia. clearbody x' w'. split.
    + intros ix F. apply Forall2_app_inv_r in F. destruct F as (a & b & F1 & F2 & ->). inversion F2 as [|i n' b' ns' Hi Hb]; subst. inversion Hb; subst.
      assert (La : List.length a = List.length ns) by (apply (Forall2_len _ _ _ _ _ F1)).
      assert (Ld : List.length a = d) by (rewrite La; unfold ns, d; apply map_length).
      rewrite horner_snoc by auto. destruct (HI a F1) as [HX HW]. split.
      * intros k Hk. destruct (Nat.eq_dec k d) as [->|].
        -- rewrite EX1 by auto. rewrite ND, <- Ld, nth_middle. reflexivity.
        -- rewrite EX0 by lia. rewrite HX by lia. rewrite NO by lia. rewrite app_nth1 by lia. reflexivity.
      * rewrite EW by auto. rewrite HW. simpl prodf. f_equal.
        -- apply prodf_ext. intros k Hk. rewrite WO by lia. rewrite app_nth1 by lia. reflexivity.
        -- rewrite WD, <- Ld, nth_middle. reflexivity.
    + intros f. rewrite sumf_prod. simpl prodf.
      assert (Lns : List.length ns = d) by (unfold ns, d; apply map_length).
      rewrite (prodf_ext d (fun k => sumf (nth k (ns ++ [c]) 0%nat) (fun i => weights_of (Ra ++ [(xi, wi)]) k i * f k (nodes_of (Ra ++ [(xi, wi)]) k i)))
                (fun k => sumf (nth k ns 0%nat) (fun i => weights_of Ra k i * f k (nodes_of Ra k i)))).
      2: { intros k Hk. rewrite app_nth1 by lia. apply sumf_ext. intros i Hi. now rewrite WO, NO by auto. }
      rewrite <- HS. replace (nth d (ns ++ [c]) 0%nat) with c by (rewrite <- Lns; symmetry; apply nth_middle). rewrite <- sumf_scal_r. apply sumf_ext. intros q Hq.
      rewrite <- sumf_scal_l. apply sumf_ext. intros i Hi. rewrite EW, EX1, WD, ND by auto.
      rewrite (prodf_ext d (fun k => f k (x'.[(q * c + i)%nat, S k])) (fun k => f k (x.[q, S k]))) by (intros; rewrite EX0 by lia; reflexivity).
      ring.
Qed.

(** the rule handed to the user *)
Lemma tensor_rule_spec : forall rule l Rl, Forall2 (rule_ok rule) l Rl ->
  let ns := map count_of Rl in let d := List.length Rl in
  exists x w, tensor_rule rule (NList l) = Ok (x, w) /\
    shape x = [prodn ns; d] /\ shape w = [prodn ns; 1%nat] /\
    (forall ix, Forall2 lt ix ns ->
       (forall k, (k < d)%nat -> x.[horner ns ix, k] = nodes_of Rl k (nth k ix 0%nat)) /\
       w.[horner ns ix, 0%nat] = prodf d (fun k => weights_of Rl k (nth k ix 0%nat))) /\
    (forall f : nat -> R -> R,
       sumf (prodn ns) (fun r => w.[r, 0%nat] * prodf d (fun k => f k (x.[r, k])))
       = prodf d (fun k => sumf (nth k ns 0%nat) (fun i => weights_of Rl k i * f k (nodes_of Rl k i)))).
Proof.
  intros rule l Rl H ns d. unfold tensor_rule. cbn [rbind].
  assert (K : (exists n, l = [n]) \/ match l with [n] => rule n
     | _ => do (x, w) <- fold_left (tensor_step rule) l (Ok (ones2 1 1, ones2 1 1)); Ok (cols_slice x 1 (ncols x), w) end
     = do (x, w) <- fold_left (tensor_step rule) l (Ok (ones2 1 1, ones2 1 1)); Ok (cols_slice x 1 (ncols x), w)).
  { destruct l as [|a [|b l]]; auto. left. eauto. }
  destruct K as [(n & ->)|K].
  - inversion H as [|n' p l' Rb' Hp Hb]; subst. inversion Hb; subst. destruct p as [xi wi]. destruct Hp as (Er & Sx & Sw).
    exists xi, wi. unfold ns, d. cbn [map List.length prodn]. cbn [fst snd] in *. rewrite Nat.mul_1_r.
    split; [auto|]. split; [auto|]. split; [auto|]. split.
    + intros ix F. inversion F as [|i c b' ns' Hi Hb']; subst. inversion Hb'; subst. unfold horner. cbn [combine fold_left fst snd Nat.mul Nat.add].
      split; [intros k Hk; replace k with 0%nat by lia; reflexivity|]. simpl. unfold weights_of. simpl. ring.
    + intros f. simpl. rewrite !Rmult_1_l. apply sumf_ext. intros i Hi. unfold weights_of, nodes_of. simpl. ring.
  - rewrite K. destruct (tensor_loop rule l Rl H) as (x & w & EF & SX & SW & HI & HS). cbv zeta in *. fold ns d in SX, SW, HI, HS.
    rewrite EF. cbn [rbind]. exists (cols_slice x 1 (ncols x)), w. split; [reflexivity|].
    split; [unfold cols_slice; simpl; rewrite (nrows_shape2 _ x _ _ SX), (ncols_shape2 _ x _ _ SX); f_equal; f_equal; lia|].
    split; [auto|]. split; [|exact HS].
    intros ix F. destruct (HI ix F) as [A B]. split; [|exact B]. intros k Hk. rewrite <- (A k Hk). reflexivity.
Qed.
