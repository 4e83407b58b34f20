(** Determinants by cofactor expansion; multiplicativity; the determinant of a
    contraction is at most 1 in absolute value. *)
From Coq Require Import Reals Lra Lia List Arith FunctionalExtensionality.
From Verif Require Import Prelude LinAlg Spectral.
Import ListNotations.
Open Scope R_scope.

Definition mat := nat -> nat -> R.
(** the c-th index after removing j *)
Definition skip (j c : nat) : nat := if Nat.ltb c j then c else S c.
Definition unskip (j l : nat) : nat := if Nat.ltb l j then l else (l - 1)%nat.
Definition minor (j : nat) (A : mat) : mat := fun r c => A (S r) (skip j c).

(** Laplace expansion along the first row *)
Fixpoint determinant (n : nat) (A : mat) : R :=
  match n with
  | O => 1
  | S n' => sumf (S n') (fun j => (-1) ^ j * A 0%nat j * determinant n' (minor j A))
  end.

Definition setrow (A : mat) (i : nat) (v : nat -> R) : mat := fun r c => if Nat.eqb r i then v c else A r c.

Lemma skip_lt : forall n j c, (c < n)%nat -> (skip j c < S n)%nat.
Proof. intros. unfold skip. destruct (Nat.ltb_spec c j); lia. Qed.
Lemma skip_ne : forall j c, skip j c <> j.
Proof. intros. unfold skip. destruct (Nat.ltb_spec c j); lia. Qed.
Lemma unskip_skip : forall j c, unskip j (skip j c) = c.
Proof. intros. unfold unskip, skip. destruct (Nat.ltb_spec c j); [destruct (Nat.ltb_spec c j); lia|destruct (Nat.ltb_spec (S c) j); lia]. Qed.
Lemma skip_unskip : forall j l, l <> j -> skip j (unskip j l) = l.
Proof. intros. unfold unskip, skip. destruct (Nat.ltb_spec l j); [destruct (Nat.ltb_spec l j); lia|destruct (Nat.ltb_spec (l - 1) j); lia]. Qed.
Lemma unskip_lt : forall n j l, (l < S n)%nat -> (j < S n)%nat -> l <> j -> (unskip j l < n)%nat.
Proof. intros. unfold unskip. destruct (Nat.ltb_spec l j); lia. Qed.

Lemma skip_comm_lt : forall j l c, (j < l)%nat -> skip j (skip (l - 1) c) = skip l (skip j c).
Proof.
  intros j l c H. unfold skip at 2 4. destruct (Nat.ltb_spec c (l - 1)), (Nat.ltb_spec c j); unfold skip;
    repeat match goal with |- context [Nat.ltb ?a ?b] => destruct (Nat.ltb_spec a b) end; lia.
Qed.
Lemma skip_comm : forall j l c, j <> l -> skip j (skip (unskip j l) c) = skip l (skip (unskip l j) c).
Proof.
  intros j l c H. unfold unskip. destruct (Nat.ltb_spec l j), (Nat.ltb_spec j l); try lia.
  - symmetry. apply skip_comm_lt; auto.
  - apply skip_comm_lt; auto.
Qed.

Lemma determinant_ext : forall n A B, (forall i j, (i < n)%nat -> (j < n)%nat -> A i j = B i j) -> determinant n A = determinant n B.
Proof.
  induction n as [|n IH]; intros A B H; [reflexivity|]. cbn [determinant]. apply sumf_ext; intros j Hj.
  rewrite (H 0%nat j) by lia. f_equal. apply IH. intros r c Hr Hc. apply H; [lia|]. apply skip_lt; auto.
Qed.

Lemma determinant_linear : forall n A i a u v, (i < n)%nat ->
  determinant n (setrow A i (fun c => a * u c + v c)) = a * determinant n (setrow A i u) + determinant n (setrow A i v).
Proof.
  induction n as [|n IH]; intros A i a u v Hi; [lia|]. cbn [determinant].
  rewrite <- sumf_scal_l, <- sumf_plus. apply sumf_ext; intros j Hj.
  destruct i as [|i].
  - assert (E : forall w, determinant n (minor j (setrow A 0 w)) = determinant n (minor j A)).
    { intros w. apply determinant_ext. intros; reflexivity. }
    rewrite !E. unfold setrow. cbn [Nat.eqb]. ring.
  - assert (E : forall w, determinant n (minor j (setrow A (S i) w)) = determinant n (setrow (minor j A) i (fun c => w (skip j c)))).
    { intros w. apply determinant_ext. intros; reflexivity. }
    rewrite !E. rewrite (IH (minor j A) i a (fun c => u (skip j c)) (fun c => v (skip j c))) by lia.
    assert (E0 : forall w, setrow A (S i) w 0%nat j = A 0%nat j) by reflexivity. rewrite !E0. ring.
Qed.

Lemma sumf_skip : forall n j h, (j < S n)%nat ->
  sumf (S n) (fun l => if Nat.eqb l j then 0 else h l) = sumf n (fun k => h (skip j k)).
Proof.
  intros n j h Hj.
  rewrite (sumf_le_split (S n) j) by lia. replace (S n - j)%nat with (1 + (n - j))%nat by lia.
  rewrite (sumf_split 1). rewrite (sumf_le_split n j) by lia.
  rewrite (sumf_ext j (fun l => if Nat.eqb l j then 0 else h l) (fun k => h (skip j k))).
  2: { intros i Hi. unfold skip. destruct (Nat.eqb_spec i j); [lia|]. destruct (Nat.ltb_spec i j); [auto|lia]. }
  f_equal. cbn [sumf]. destruct (Nat.eqb_spec (j + 0) j); [|lia]. rewrite !Rplus_0_l.
  apply sumf_ext; intros i Hi. destruct (Nat.eqb_spec (j + (1 + i)) j); [lia|].
  unfold skip. destruct (Nat.ltb_spec (j + i) j); [lia|]. f_equal. lia.
Qed.

Lemma neg1_pow_S : forall k, (-1) ^ S k = - (-1) ^ k.
Proof. intros. simpl. ring. Qed.

Lemma determinant_adjacent : forall n A i, (S i < n)%nat -> (forall c, (c < n)%nat -> A i c = A (S i) c) -> determinant n A = 0.
Proof.
  induction n as [|n IH]; intros A i Hi H; [lia|].
  destruct i as [|i].
  - destruct n as [|n]; [lia|]. clear IH.
    set (F := fun j l => if Nat.eqb l j then 0 else (-1) ^ (j + unskip j l) * A 0%nat j * A 0%nat l
                 * determinant n (fun r c => A (S (S r)) (skip j (skip (unskip j l) c)))).
    assert (E : determinant (S (S n)) A = sumf (S (S n)) (fun j => sumf (S (S n)) (fun l => F j l))).
    { change (determinant (S (S n)) A) with (sumf (S (S n)) (fun j => (-1) ^ j * A 0%nat j * determinant (S n) (minor j A))).
      apply sumf_ext; intros j Hj. unfold F.
      rewrite (sumf_skip (S n) j (fun l => (-1) ^ (j + unskip j l) * A 0%nat j * A 0%nat l
                 * determinant n (fun r c => A (S (S r)) (skip j (skip (unskip j l) c))))) by auto.
      change (determinant (S n) (minor j A)) with (sumf (S n) (fun k => (-1) ^ k * minor j A 0%nat k * determinant n (minor k (minor j A)))).
      rewrite <- sumf_scal_l. apply sumf_ext; intros k Hk. rewrite unskip_skip, pow_add.
      unfold minor at 1. rewrite <- H by (apply skip_lt; auto).
      change (determinant n (minor k (minor j A))) with (determinant n (fun r c => A (S (S r)) (skip j (skip k c)))). ring. }
    assert (AS : forall j l, F j l = - F l j).
    { intros j l. unfold F. rewrite (Nat.eqb_sym l j). destruct (Nat.eqb_spec j l) as [|N]; [ring|].
      assert (D : determinant n (fun r c => A (S (S r)) (skip j (skip (unskip j l) c))) =
                  determinant n (fun r c => A (S (S r)) (skip l (skip (unskip l j) c)))).
      { apply determinant_ext. intros r c Hr Hc. f_equal. now apply skip_comm. }
      rewrite D. destruct (Nat.lt_ge_cases j l) as [Hlt|Hge].
      - assert (E1 : (l + unskip l j)%nat = S (j + unskip j l)).
        { unfold unskip. destruct (Nat.ltb_spec j l); [|lia]. destruct (Nat.ltb_spec l j); lia. }
        rewrite E1, neg1_pow_S. ring.
      - assert (E1 : (j + unskip j l)%nat = S (l + unskip l j)).
        { unfold unskip. destruct (Nat.ltb_spec j l); [lia|]. destruct (Nat.ltb_spec l j); lia. }
        rewrite E1, neg1_pow_S. ring. }
    assert (E2 : sumf (S (S n)) (fun j => sumf (S (S n)) (fun l => F j l)) = - sumf (S (S n)) (fun j => sumf (S (S n)) (fun l => F j l))).
    { rewrite sumf_swap at 1. rewrite <- sumf_opp. apply sumf_ext; intros l Hl. rewrite <- sumf_opp. apply sumf_ext; intros j Hj. apply AS. }
    lra.
  - cbn [determinant]. apply sumf_zero; intros j Hj. rewrite (IH (minor j A) i); [ring|lia|].
    intros c Hc. unfold minor. apply H. apply skip_lt; auto.
Qed.

(** ** alternating multilinear functions of the rows *)
Record altlin (n : nat) (F : mat -> R) : Prop := {
  al_ext : forall A B, (forall i j, (i < n)%nat -> (j < n)%nat -> A i j = B i j) -> F A = F B;
  al_lin : forall A i a u v, (i < n)%nat -> F (setrow A i (fun c => a * u c + v c)) = a * F (setrow A i u) + F (setrow A i v);
  al_alt : forall A i k, (i < n)%nat -> (k < n)%nat -> i <> k -> (forall c, (c < n)%nat -> A i c = A k c) -> F A = 0
}.

(** swapping rows changes the sign, from any pair on which F vanishes when equal *)
Lemma swap_neg : forall n F i k,
  (forall A B, (forall i j, (i < n)%nat -> (j < n)%nat -> A i j = B i j) -> F A = F B) ->
  (forall A i a u v, (i < n)%nat -> F (setrow A i (fun c => a * u c + v c)) = a * F (setrow A i u) + F (setrow A i v)) ->
  (i < n)%nat -> (k < n)%nat -> i <> k ->
  (forall A, (forall c, (c < n)%nat -> A i c = A k c) -> F A = 0) ->
  forall A, F (fun r c => if Nat.eqb r i then A k c else if Nat.eqb r k then A i c else A r c) = - F A.
Proof.
  intros n F i k Hext Hlin Hi Hk N Halt A.
  set (T := fun u v : nat -> R => setrow (setrow A i u) k v).
  assert (L1 : forall u u' v, F (T (fun c => 1 * u c + u' c) v) = F (T u v) + F (T u' v)).
  { intros u u' v. unfold T.
    assert (Q : forall w, F (setrow (setrow A i w) k v) = F (setrow (setrow A k v) i w)).
    { intros w. apply Hext. intros r c Hr Hc. unfold setrow. destruct (Nat.eqb_spec r k), (Nat.eqb_spec r i); auto; lia. }
    rewrite !Q, Hlin by auto. ring. }
  assert (L2 : forall u v v', F (T u (fun c => 1 * v c + v' c)) = F (T u v) + F (T u v')).
  { intros u v v'. unfold T. rewrite Hlin by auto. ring. }
  assert (Z : forall u, F (T u u) = 0).
  { intros u. apply Halt. intros c Hc. unfold T, setrow.
    rewrite Nat.eqb_refl. destruct (Nat.eqb_spec i k); [lia|]. rewrite Nat.eqb_refl. reflexivity. }
  pose proof (Z (fun c => 1 * A i c + A k c)) as E. rewrite L1, !L2, !Z in E.
  assert (E1 : F A = F (T (A i) (A k))).
  { apply Hext. intros r c Hr Hc. unfold T, setrow. destruct (Nat.eqb_spec r k), (Nat.eqb_spec r i); subst; auto. }
  assert (E2 : F (fun r c => if Nat.eqb r i then A k c else if Nat.eqb r k then A i c else A r c) = F (T (A k) (A i))).
  { apply Hext. intros r c Hr Hc. unfold T, setrow. destruct (Nat.eqb_spec r k), (Nat.eqb_spec r i); subst; auto; lia. }
  rewrite E1, E2. lra.
Qed.

Lemma determinant_equal_rows : forall n d A i, (i + S d < n)%nat -> (forall c, (c < n)%nat -> A i c = A (i + S d)%nat c) -> determinant n A = 0.
Proof.
  intros n d. induction d as [|d IH]; intros A i Hd H.
  - apply (determinant_adjacent n A i); [lia|]. intros c Hc. rewrite (H c Hc). f_equal. lia.
  - set (k := (i + S d)%nat).
    assert (E := swap_neg n (determinant n) k (S k) (determinant_ext n) (fun A i a u v => determinant_linear n A i a u v)
                  ltac:(unfold k; lia) ltac:(unfold k; lia) ltac:(lia)
                  (fun A H => determinant_adjacent n A k ltac:(unfold k; lia) H) A).
    assert (Z : determinant n (fun r c => if Nat.eqb r k then A (S k) c else if Nat.eqb r (S k) then A k c else A r c) = 0).
    { apply (IH _ i); [lia|]. intros c Hc. fold k. rewrite Nat.eqb_refl.
      destruct (Nat.eqb_spec i k); [unfold k in *; lia|]. destruct (Nat.eqb_spec i (S k)); [unfold k in *; lia|].
      rewrite (H c Hc). f_equal. unfold k. lia. }
    lra.
Qed.

Lemma determinant_altlin : forall n, altlin n (determinant n).
Proof.
  intros n. constructor.
  - apply determinant_ext.
  - intros. now apply determinant_linear.
  - intros A i k Hi Hk N H. destruct (Nat.lt_ge_cases i k) as [L|L].
    + apply (determinant_equal_rows n (k - i - 1) A i); [lia|]. intros c Hc. rewrite (H c Hc). f_equal. lia.
    + apply (determinant_equal_rows n (i - k - 1) A k); [lia|]. intros c Hc. rewrite <- (H c Hc). f_equal. lia.
Qed.

Section AltLin.
  Variables (n : nat) (F : mat -> R).
  Hypothesis HF : altlin n F.

  Lemma al_zero_row : forall A i, (i < n)%nat -> F (setrow A i (fun _ => 0)) = 0.
  Proof.
    intros A i Hi. pose proof (al_lin n F HF A i (-1) (fun _ => 0) (fun _ => 0) Hi) as E. cbv beta in E.
    rewrite (al_ext n F HF (setrow A i (fun _ => -1 * 0 + 0)) (setrow A i (fun _ => 0))) in E.
    - lra.
    - intros r c Hr Hc. unfold setrow. destruct (Nat.eqb r i); ring.
  Qed.

  Lemma al_sum : forall A i N a (u : nat -> nat -> R), (i < n)%nat ->
    F (setrow A i (fun c => sumf N (fun j => a j * u j c))) = sumf N (fun j => a j * F (setrow A i (u j))).
  Proof.
    intros A i N a u Hi. induction N as [|N IH]; [apply al_zero_row; auto|]. cbn [sumf]. rewrite <- IH.
    rewrite Rplus_comm, <- (al_lin n F HF) by auto. apply (al_ext n F HF).
    intros r c Hr Hc. unfold setrow. destruct (Nat.eqb r i); ring.
  Qed.

  Lemma al_swap : forall A i k, (i < n)%nat -> (k < n)%nat -> i <> k ->
    F (fun r c => if Nat.eqb r i then A k c else if Nat.eqb r k then A i c else A r c) = - F A.
  Proof.
    intros A i k Hi Hk N. apply (swap_neg n F i k (al_ext n F HF)); auto.
    - intros; apply (al_lin n F HF); auto.
    - intros B HB. apply (al_alt n F HF B i k); auto.
  Qed.

  (** adding a multiple of row i to row k changes nothing *)
  Lemma al_addrow : forall A i k a u, (i < n)%nat -> (k < n)%nat -> i <> k ->
    F (setrow A k (fun c => a * A i c + u c)) = F (setrow A k u).
  Proof.
    intros A i k a u Hi Hk N. rewrite (al_lin n F HF) by auto.
    rewrite (al_alt n F HF (setrow A k (A i)) i k); auto; [ring|].
    intros c Hc. unfold setrow. rewrite Nat.eqb_refl. destruct (Nat.eqb_spec i k); [lia|reflexivity].
  Qed.
End AltLin.

(** [emb j B]: first row e_j, B in the other rows and columns, 0 below the 1 *)
Definition emb (j : nat) (B : mat) : mat := fun r c =>
  match r with
  | O => kron_delta j c
  | S r' => if Nat.eqb c j then 0 else B r' (unskip j c)
  end.

Lemma emb_altlin : forall n F j, altlin (S n) F -> (j < S n)%nat -> altlin n (fun B => F (emb j B)).
Proof.
  intros n F j HF Hj. constructor.
  - intros A B H. apply (al_ext _ _ HF). intros r c Hr Hc. unfold emb. destruct r as [|r]; auto.
    destruct (Nat.eqb_spec c j); auto. apply H; [lia|]. apply unskip_lt; auto.
  - intros A i a u v Hi.
    assert (E : forall w, F (emb j (setrow A i w)) = F (setrow (emb j A) (S i) (fun c => if Nat.eqb c j then 0 else w (unskip j c)))).
    { intros w. apply (al_ext _ _ HF). intros r c Hr Hc. unfold emb, setrow. destruct r as [|r]; auto. cbn [Nat.eqb].
      destruct (Nat.eqb r i), (Nat.eqb c j); auto. }
    rewrite !E. rewrite <- (al_lin _ _ HF) by lia. apply (al_ext _ _ HF).
    intros r c Hr Hc. unfold setrow. destruct (Nat.eqb r (S i)); auto. destruct (Nat.eqb c j); ring.
  - intros A i k Hi Hk N H. apply (al_alt _ _ HF _ (S i) (S k)); try lia.
    intros c Hc. cbn [emb]. destruct (Nat.eqb_spec c j); auto. apply H. apply unskip_lt; auto.
Qed.

(** clearing column j below a first row e_j *)
Lemma al_clear : forall n F A j, altlin (S n) F -> (j < S n)%nat ->
  F (setrow A 0 (fun c => kron_delta j c)) = F (emb j (minor j A)).
Proof.
  intros n F A j HF Hj.
  set (B := fun k r c => match r with O => kron_delta j c
     | S r' => if Nat.leb (S r') k then (if Nat.eqb c j then 0 else A r c) else A r c end).
  assert (H : forall k, (k <= n)%nat -> F (setrow A 0 (fun c => kron_delta j c)) = F (B k)).
  { induction k as [|k IH]; intros Hk.
    - apply (al_ext _ _ HF). intros r c Hr Hc. destruct r; reflexivity.
    - rewrite IH by lia.
      transitivity (F (setrow (B (S k)) (S k) (fun c => A (S k) j * B (S k) 0%nat c + B (S k) (S k) c))).
      + apply (al_ext _ _ HF). intros r c Hr Hc. unfold setrow. destruct (Nat.eqb_spec r (S k)) as [->|N].
        * unfold B. destruct (Nat.leb_spec (S k) k); [lia|]. rewrite Nat.leb_refl.
          unfold kron_delta. rewrite (Nat.eqb_sym j c). destruct (Nat.eqb_spec c j); subst; ring.
        * unfold B. destruct r as [|r]; auto. destruct (Nat.leb_spec (S r) k), (Nat.leb_spec (S r) (S k)); auto; lia.
      + rewrite (al_addrow (S n) F HF (B (S k)) 0 (S k)) by lia. apply (al_ext _ _ HF).
        intros r c Hr Hc. unfold setrow. destruct (Nat.eqb_spec r (S k)) as [->|N]; auto. }
  rewrite (H n) by lia. apply (al_ext _ _ HF). intros r c Hr Hc. unfold B, emb, minor. destruct r as [|r]; auto.
  destruct (Nat.leb_spec (S r) n); [|lia]. destruct (Nat.eqb_spec c j); auto. now rewrite skip_unskip.
Qed.

Lemma emb_id : forall n F j, altlin (S n) F -> (j < S n)%nat -> F (emb j kron_delta) = (-1) ^ j * F kron_delta.
Proof.
  intros n F j HF. induction j as [|j IH]; intros Hj.
  - rewrite pow_O, Rmult_1_l. apply (al_ext _ _ HF). intros r c Hr Hc. unfold emb, unskip, kron_delta.
    destruct r as [|r]; auto. destruct c as [|c]; auto. cbn. now rewrite Nat.sub_0_r.
  - rewrite neg1_pow_S. rewrite <- Ropp_mult_distr_l, <- IH by lia.
    rewrite <- (al_swap (S n) F HF (emb j kron_delta) 0 (S j)) by lia. apply (al_ext _ _ HF).
    intros r c Hr Hc. destruct r as [|r].
    + cbn [Nat.eqb emb]. unfold kron_delta, unskip. destruct (Nat.eqb_spec c j) as [->|N].
      * destruct (Nat.eqb_spec (S j) j); [lia|auto].
      * destruct (Nat.ltb_spec c j).
        -- destruct (Nat.eqb_spec (S j) c), (Nat.eqb_spec j c); auto; lia.
        -- destruct (Nat.eqb_spec (S j) c), (Nat.eqb_spec j (c - 1)); auto; lia.
    + cbn [Nat.eqb emb]. unfold kron_delta, unskip. destruct (Nat.eqb_spec r j) as [->|N].
      * destruct (Nat.eqb_spec c (S j)), (Nat.eqb_spec j c); try lia; auto.
        -- destruct (Nat.ltb_spec c (S j)); [|lia]. destruct (Nat.eqb_spec j c); [auto|lia].
        -- destruct (Nat.ltb_spec c (S j)); [destruct (Nat.eqb_spec j c); [lia|auto]|]. destruct (Nat.eqb_spec j (c - 1)); [lia|auto].
      * destruct (Nat.eqb_spec c (S j)), (Nat.eqb_spec c j); try lia; auto.
        -- destruct (Nat.ltb_spec c j); [lia|]. destruct (Nat.eqb_spec r (c - 1)); [lia|auto].
        -- destruct (Nat.ltb_spec c (S j)); [|lia]. destruct (Nat.eqb_spec r c); [lia|auto].
        -- destruct (Nat.ltb_spec c (S j)), (Nat.ltb_spec c j); try lia; auto.
Qed.

(** the determinant is the only alternating multilinear function, up to scale *)
Theorem altlin_unique : forall n F, altlin n F -> forall A, F A = determinant n A * F kron_delta.
Proof.
  induction n as [|n IH]; intros F HF A.
  - cbn [determinant]. rewrite Rmult_1_l. apply (al_ext _ _ HF). intros; lia.
  - cbn [determinant].
    transitivity (F (setrow A 0 (fun c => sumf (S n) (fun j => A 0%nat j * kron_delta j c)))).
    { apply (al_ext _ _ HF). intros r c Hr Hc. unfold setrow. destruct (Nat.eqb_spec r 0) as [->|]; auto.
      now rewrite (sumf_kd_r (S n) c (fun j => A 0%nat j)). }
    rewrite (al_sum (S n) F HF A 0 (S n) (fun j => A 0%nat j) kron_delta) by lia.
    rewrite <- sumf_scal_r. apply sumf_ext; intros j Hj.
    change (setrow A 0 (kron_delta j)) with (setrow A 0 (fun c => kron_delta j c)).
    rewrite (al_clear n F A j HF Hj). rewrite (IH (fun B => F (emb j B)) (emb_altlin n F j HF Hj)).
    rewrite (emb_id n F j HF Hj). ring.
Qed.

Definition mmul (n : nat) (A B : mat) : mat := fun i k => sumf n (fun j => A i j * B j k).

Lemma determinant_id : forall n, determinant n kron_delta = 1.
Proof.
  induction n as [|n IH]; [reflexivity|]. cbn [determinant]. rewrite (sumf_single (S n) 0); [|lia|].
  - rewrite pow_O, kd_same. rewrite (determinant_ext n _ kron_delta), IH; [ring|].
    intros i j Hi Hj. unfold minor, skip, kron_delta. cbn. reflexivity.
  - intros i Hi N. rewrite kd_diff by auto. ring.
Qed.

Theorem determinant_mul : forall n A B, determinant n (mmul n A B) = determinant n A * determinant n B.
Proof.
  intros n A B.
  assert (HF : altlin n (fun A => determinant n (mmul n A B))).
  { constructor.
    - intros A1 A2 H. apply determinant_ext. intros i j Hi Hj. apply sumf_ext; intros k Hk. now rewrite H.
    - intros A1 i a u v Hi.
      assert (E : forall w, determinant n (mmul n (setrow A1 i w) B) = determinant n (setrow (mmul n A1 B) i (fun c => sumf n (fun j => w j * B j c)))).
      { intros w. apply determinant_ext. intros r c Hr Hc. unfold mmul, setrow. destruct (Nat.eqb r i); auto. }
      rewrite !E, <- determinant_linear by auto. apply determinant_ext. intros r c Hr Hc. unfold setrow.
      destruct (Nat.eqb r i); auto. rewrite <- sumf_scal_l, <- sumf_plus. apply sumf_ext; intros; ring.
    - intros A1 i k Hi Hk N H. apply (al_alt _ _ (determinant_altlin n) _ i k); auto.
      intros c Hc. apply sumf_ext; intros j Hj. now rewrite H. }
  rewrite (altlin_unique n _ HF A). f_equal. apply determinant_ext. intros i j Hi Hj. unfold mmul.
  now rewrite (sumf_kd_l n i (fun k => B k j)).
Qed.

(** ** Contractions *)
Definition contraction (n : nat) (A : mat) : Prop :=
  forall x, sumf n (fun i => sumf n (fun j => A i j * x j) * sumf n (fun j => A i j * x j)) <= sumf n (fun i => x i * x i).

Fixpoint mpow (n : nat) (A : mat) (k : nat) : mat :=
  match k with O => kron_delta | S k' => mmul n A (mpow n A k') end.

Lemma mpow_contraction : forall n A k, contraction n A -> contraction n (mpow n A k).
Proof.
  intros n A k H. induction k as [|k IH]; intros x.
  - right. apply sumf_ext; intros i Hi. cbn [mpow]. rewrite (sumf_kd_l n i x) by auto. reflexivity.
  - cbn [mpow]. eapply Rle_trans; [|apply IH]. eapply Rle_trans; [|apply (H (fun i => sumf n (fun j => mpow n A k i j * x j)))].
    right. apply sumf_ext; intros i Hi. f_equal; unfold mmul.
    + rewrite (sumf_ext n _ (fun j => sumf n (fun l => A i l * (mpow n A k l j * x j)))).
      2: { intros j Hj. rewrite <- sumf_scal_r. apply sumf_ext; intros; ring. }
      rewrite sumf_swap. apply sumf_ext; intros. now rewrite sumf_scal_l.
    + rewrite (sumf_ext n _ (fun j => sumf n (fun l => A i l * (mpow n A k l j * x j)))).
      2: { intros j Hj. rewrite <- sumf_scal_r. apply sumf_ext; intros; ring. }
      rewrite sumf_swap. apply sumf_ext; intros. now rewrite sumf_scal_l.
Qed.

Lemma contraction_entry : forall n A i j, contraction n A -> (i < n)%nat -> (j < n)%nat -> Rabs (A i j) <= 1.
Proof.
  intros n A i j H Hi Hj. specialize (H (fun k => kron_delta k j)).
  cbv beta in H.
  rewrite (sumf_kd_r n j (fun i => kron_delta i j)), kd_same in H by auto.
  rewrite (sumf_ext n _ (fun i => A i j * A i j)) in H.
  2: { intros k Hk. rewrite (sumf_kd_r n j (fun c => A k c)) by auto. reflexivity. }
  assert (A i j * A i j <= 1).
  { eapply Rle_trans; [|apply H]. apply (sumf_term_le n (fun i => A i j * A i j)); auto. intros; apply Rle_0_sqr. }
  apply Rabs_le. nra.
Qed.

Lemma determinant_bound : forall n A, (forall i j, (i < n)%nat -> (j < n)%nat -> Rabs (A i j) <= 1) ->
  Rabs (determinant n A) <= INR (fact n).
Proof.
  induction n as [|n IH]; intros A H; [simpl; rewrite Rabs_R1; lra|]. cbn [determinant].
  eapply Rle_trans; [apply sumf_abs|].
  apply Rle_trans with (sumf (S n) (fun _ => INR (fact n))).
  - apply sumf_le; intros j Hj. rewrite !Rabs_mult, pow_1_abs, Rmult_1_l.
    rewrite <- (Rmult_1_l (INR (fact n))). apply Rmult_le_compat; try apply Rabs_pos.
    + apply H; lia.
    + apply IH. intros r c Hr Hc. apply H; [lia|]. apply skip_lt; auto.
  - rewrite sumf_const. right. rewrite <- mult_INR. f_equal.
Qed.

Lemma determinant_mpow : forall n A k, determinant n (mpow n A k) = determinant n A ^ k.
Proof.
  intros n A k. induction k as [|k IH]; [apply determinant_id|]. cbn [mpow pow]. rewrite determinant_mul, IH. reflexivity.
Qed.

Theorem contraction_det : forall n A, contraction n A -> Rabs (determinant n A) <= 1.
Proof.
  intros n A H. destruct (Rle_lt_dec (Rabs (determinant n A)) 1) as [|L]; auto. exfalso.
  destruct (Pow_x_infinity (determinant n A) L (INR (fact n) + 1)) as (N & HN).
  specialize (HN N (le_n N)). rewrite <- determinant_mpow in HN.
  pose proof (determinant_bound n (mpow n A N)) as B.
  assert (Rabs (determinant n (mpow n A N)) <= INR (fact n)).
  { apply B. intros i j Hi Hj. apply (contraction_entry n); auto. apply mpow_contraction; auto. }
  lra.
Qed.
