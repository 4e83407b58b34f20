(** NumPy arrays: a shape and an entry function.  Operations check shapes and
    raise the exceptions NumPy raises. *)
From Coq Require Import Reals Lra Lia List Arith ZArith String.
From Verif Require Import Prelude Py.
Import ListNotations.
Open Scope R_scope.

Record nd (A : Type) : Type := ND { shape : list nat; at_ : list nat -> A }.
Arguments ND {A}.
Arguments shape {A}.
Arguments at_ {A}.

Notation "X .[ i ]" := (at_ X [i]) (at level 2, left associativity, format "X .[ i ]").
Notation "X .[ i , j ]" := (at_ X [i; j]) (at level 2, left associativity, format "X .[ i ,  j ]").
Notation "X .[ i , j , k ]" := (at_ X [i; j; k]) (at level 2, left associativity, format "X .[ i ,  j ,  k ]").

Definition mk1 {A} (n : nat) (f : nat -> A) : nd A :=
  ND [n] (fun ix => f (nth 0 ix 0%nat)).
Definition mk2 {A} (r c : nat) (f : nat -> nat -> A) : nd A :=
  ND [r; c] (fun ix => f (nth 0 ix 0%nat) (nth 1 ix 0%nat)).
Definition mk3 {A} (a b c : nat) (f : nat -> nat -> nat -> A) : nd A :=
  ND [a; b; c] (fun ix => f (nth 0 ix 0%nat) (nth 1 ix 0%nat) (nth 2 ix 0%nat)).

(** X.shape[0], X.shape[1] *)
Definition nrows {A} (X : nd A) : nat := nth 0 (shape X) 0%nat.
Definition ncols {A} (X : nd A) : nat := nth 1 (shape X) 0%nat.
Definition rank {A} (X : nd A) : nat := List.length (shape X).

Fixpoint prodn (l : list nat) : nat := match l with [] => 1 | x :: t => x * prodn t end%nat.
(** X.size *)
Definition size {A} (X : nd A) : nat := prodn (shape X).

(** valid multi-indices of a shape *)
Definition inrange (shp ix : list nat) : Prop := Forall2 lt ix shp.

(** equality of arrays: same shape, same entries *)
Definition eqnd {A} (X Y : nd A) : Prop :=
  shape X = shape Y /\ forall ix, inrange (shape X) ix -> at_ X ix = at_ Y ix.
Notation "X === Y" := (eqnd X Y) (at level 70, no associativity).

Lemma eqnd_refl : forall A (X : nd A), X === X.
Proof. split; auto. Qed.
Lemma eqnd_sym : forall A (X Y : nd A), X === Y -> Y === X.
Proof. intros A X Y [H1 H2]. split; [auto|]. intros ix Hi. symmetry. apply H2. now rewrite H1. Qed.
Lemma eqnd_trans : forall A (X Y Z : nd A), X === Y -> Y === Z -> X === Z.
Proof.
  intros A X Y Z [H1 H2] [H3 H4]. split; [congruence|]. intros ix Hi.
  rewrite H2 by auto. apply H4. now rewrite <- H1.
Qed.

Lemma eqnd1 : forall A n (X Y : nd A), shape X = [n] -> shape Y = [n] ->
  (forall i, (i < n)%nat -> X.[i] = Y.[i]) -> X === Y.
Proof.
  intros A n X Y HX HY H. split; [congruence|]. rewrite HX. intros ix Hi.
  inversion Hi as [|i n' ix' l' Hlt Hr]; subst. inversion Hr; subst. auto.
Qed.
Lemma eqnd2 : forall A r c (X Y : nd A), shape X = [r; c] -> shape Y = [r; c] ->
  (forall i j, (i < r)%nat -> (j < c)%nat -> X.[i, j] = Y.[i, j]) -> X === Y.
Proof.
  intros A r c X Y HX HY H. split; [congruence|]. rewrite HX. intros ix Hi.
  inversion Hi as [|i n' ix' l' Hlt Hr]; subst. inversion Hr as [|j n2 ix2 l2 Hlt2 Hr2]; subst.
  inversion Hr2; subst. auto.
Qed.
Lemma eqnd3 : forall A a b c (X Y : nd A), shape X = [a; b; c] -> shape Y = [a; b; c] ->
  (forall i j k, (i < a)%nat -> (j < b)%nat -> (k < c)%nat -> X.[i, j, k] = Y.[i, j, k]) -> X === Y.
Proof.
  intros A a b c X Y HX HY H. split; [congruence|]. rewrite HX. intros ix Hi.
  inversion Hi as [|i n' ix' l' Hlt Hr]; subst. inversion Hr as [|j n2 ix2 l2 Hlt2 Hr2]; subst.
  inversion Hr2 as [|k n3 ix3 l3 Hlt3 Hr3]; subst. inversion Hr3; subst. auto.
Qed.
Lemma eqnd_at2 : forall A (X Y : nd A) r c i j, X === Y -> shape X = [r; c] ->
  (i < r)%nat -> (j < c)%nat -> X.[i, j] = Y.[i, j].
Proof.
  intros A X Y r c i j [H1 H2] HX Hi Hj. apply H2. rewrite HX. repeat constructor; auto.
Qed.

(** ** Row-major (C order) linear index *)

Fixpoint ravel (shp ix : list nat) : nat :=
  match shp, ix with
  | _ :: shp', i :: ix' => (i * prodn shp' + ravel shp' ix')%nat
  | _, _ => O
  end.
Fixpoint unravel (shp : list nat) (k : nat) : list nat :=
  match shp with
  | [] => []
  | _ :: shp' => (k / prodn shp')%nat :: unravel shp' (k mod prodn shp')
  end.

(** X.reshape(shp); asking for the shape X already has gives X itself *)
Definition reshape {A} (shp : list nat) (X : nd A) : res (nd A) :=
  if list_eq_dec Nat.eq_dec shp (shape X) then Ok X else
  if Nat.eqb (prodn shp) (size X)
  then Ok (ND shp (fun ix => at_ X (unravel (shape X) (ravel shp ix))))
  else Err ValueError.

Lemma prodn_pos : forall shp ix, inrange shp ix -> (0 < prodn shp)%nat.
Proof.
  intros shp ix H. induction H; simpl; [lia|]. destruct y; [lia|]. simpl in *. lia.
Qed.

Lemma ravel_lt : forall shp ix, inrange shp ix -> (ravel shp ix < prodn shp)%nat.
Proof.
  intros shp ix H. induction H; simpl; [lia|].
  pose proof (prodn_pos _ _ H0). nia.
Qed.

Lemma unravel_ravel : forall shp ix, inrange shp ix -> unravel shp (ravel shp ix) = ix.
Proof.
  intros shp ix H. induction H as [|i s ix shp Hlt Hr IH]; simpl; [reflexivity|].
  pose proof (ravel_lt _ _ Hr) as HL. pose proof (prodn_pos _ _ Hr) as HP.
  rewrite Nat.add_comm, Nat.div_add by lia. rewrite Nat.mod_add by lia.
  rewrite Nat.div_small, Nat.mod_small by lia. simpl. now rewrite IH.
Qed.

Lemma ravel_unravel : forall shp k, (k < prodn shp)%nat -> ravel shp (unravel shp k) = k.
Proof.
  induction shp as [|s shp IH]; intros k H; simpl in *; [lia|].
  assert (prodn shp <> 0)%nat by (intro E; rewrite E in H; lia).
  rewrite IH by (apply Nat.mod_upper_bound; auto).
  rewrite (Nat.div_mod k (prodn shp)) at 3 by auto. lia.
Qed.

Lemma unravel_inrange : forall shp k, (k < prodn shp)%nat -> inrange shp (unravel shp k).
Proof.
  induction shp as [|s shp IH]; intros k H; simpl in *; [constructor|].
  assert (prodn shp <> 0)%nat by (intro E; rewrite E in H; lia).
  constructor.
  - apply Nat.div_lt_upper_bound; auto. lia.
  - apply IH. apply Nat.mod_upper_bound; auto.
Qed.

Lemma reshape_id : forall A (X : nd A), reshape (shape X) X = Ok X.
Proof. intros A X. unfold reshape. destruct (list_eq_dec Nat.eq_dec (shape X) (shape X)); congruence. Qed.

Lemma reshape_same : forall A (X : nd A), exists Y, reshape (shape X) X = Ok Y /\ Y === X.
Proof. intros A X. exists X. split; [apply reshape_id|apply eqnd_refl]. Qed.

Lemma reshape_ok : forall A shp (X : nd A), prodn shp = size X -> exists Y,
  reshape shp X = Ok Y /\ shape Y = shp /\
  forall ix, inrange shp ix -> at_ Y ix = at_ X (unravel (shape X) (ravel shp ix)).
Proof.
  intros A shp X H. unfold reshape. destruct (list_eq_dec Nat.eq_dec shp (shape X)) as [->|N].
  - exists X. split; auto. split; auto. intros ix Hi. now rewrite unravel_ravel.
  - rewrite H, Nat.eqb_refl. eexists. split; [reflexivity|]. split; reflexivity.
Qed.

Lemma reshape_err : forall A shp (X : nd A), prodn shp <> size X -> reshape shp X = Err ValueError.
Proof.
  intros A shp X H. unfold reshape. destruct (list_eq_dec Nat.eq_dec shp (shape X)) as [->|N].
  - now contradiction H.
  - destruct (Nat.eqb_spec (prodn shp) (size X)); [contradiction|reflexivity].
Qed.

Lemma reshape_inv : forall A shp (X Y : nd A), reshape shp X = Ok Y -> prodn shp = size X /\ shape Y = shp.
Proof.
  intros A shp X Y H. destruct (Nat.eq_dec (prodn shp) (size X)) as [E|E].
  - destruct (reshape_ok A shp X E) as (Y' & H1 & H2 & _). rewrite H in H1. inversion H1; subst. auto.
  - rewrite reshape_err in H by auto. discriminate.
Qed.

(** ** Two-dimensional operations *)

Definition shape2 {A} (X : nd A) : res (nat * nat) :=
  match shape X with [r; c] => Ok (r, c) | _ => Err ValueError end.

(** X.T for 2-d arrays *)
Definition tr {A} (X : nd A) : nd A := mk2 (ncols X) (nrows X) (fun i j => X.[j, i]).

(** elementwise map *)
Definition amap {A B} (f : A -> B) (X : nd A) : nd B := ND (shape X) (fun ix => f (at_ X ix)).

Definition bdim (a b : nat) : option nat :=
  if Nat.eqb a b then Some a else if Nat.eqb a 1 then Some b else if Nat.eqb b 1 then Some a else None.
Definition bidx (n i : nat) : nat := if Nat.eqb n 1 then O else i.

(** elementwise binary operation on 2-d arrays with broadcasting *)
Definition bcast2 {A B C} (f : A -> B -> C) (X : nd A) (Y : nd B) : res (nd C) :=
  match shape X, shape Y with
  | [r1; c1], [r2; c2] =>
      match bdim r1 r2, bdim c1 c2 with
      | Some r, Some c =>
          Ok (mk2 r c (fun i j => f (X.[bidx r1 i, bidx c1 j]) (Y.[bidx r2 i, bidx c2 j])))
      | _, _ => Err ValueError
      end
  | _, _ => Err ValueError
  end.

(** np.dot of 2-d arrays *)
Definition mdot (X Y : nd R) : res (nd R) :=
  match shape X, shape Y with
  | [r; k], [k'; c] =>
      if Nat.eqb k k' then Ok (mk2 r c (fun i j => sumf k (fun l => X.[i, l] * Y.[l, j])))
      else Err ValueError
  | _, _ => Err ValueError
  end.

(** np.vstack / np.hstack of two 2-d arrays *)
Definition vstack {A} (X Y : nd A) : res (nd A) :=
  match shape X, shape Y with
  | [r1; c1], [r2; c2] =>
      if Nat.eqb c1 c2
      then Ok (mk2 (r1 + r2) c1 (fun i j => if Nat.ltb i r1 then X.[i, j] else Y.[i - r1, j])%nat)
      else Err ValueError
  | _, _ => Err ValueError
  end.
Definition hstack {A} (X Y : nd A) : res (nd A) :=
  match shape X, shape Y with
  | [r1; c1], [r2; c2] =>
      if Nat.eqb r1 r2
      then Ok (mk2 r1 (c1 + c2) (fun i j => if Nat.ltb j c1 then X.[i, j] else Y.[i, j - c1])%nat)
      else Err ValueError
  | _, _ => Err ValueError
  end.

(** np.kron of 2-d arrays *)
Definition kron (X Y : nd R) : nd R :=
  let r2 := nrows Y in let c2 := ncols Y in
  mk2 (nrows X * r2) (ncols X * c2)
      (fun i j => X.[(i / r2)%nat, (j / c2)%nat] * Y.[(i mod r2)%nat, (j mod c2)%nat]).

Definition ones2 (r c : nat) : nd R := mk2 r c (fun _ _ => 1).
Definition zeros2 (r c : nat) : nd R := mk2 r c (fun _ _ => 0).
Definition eye (n : nat) : nd R := mk2 n n kron_delta.

(** X[:, a:b], X[a:b, :] (bounds already clipped by the caller's sizes) *)
Definition cols_slice {A} (X : nd A) (a b : nat) : nd A :=
  mk2 (nrows X) (Nat.min b (ncols X) - a) (fun i j => X.[i, a + j])%nat.
Definition rows_slice {A} (X : nd A) (a b : nat) : nd A :=
  mk2 (Nat.min b (nrows X) - a) (ncols X) (fun i j => X.[a + i, j])%nat.

(** row [i] as a 1-by-m array: X[i,:].reshape((1,m)) *)
Definition row2 {A} (X : nd A) (i : nat) : nd A := mk2 1 (ncols X) (fun _ j => X.[i, j]).

Lemma shape_mk1 : forall A n (f : nat -> A), shape (mk1 n f) = [n].  Proof. reflexivity. Qed.
Lemma shape_mk2 : forall A r c (f : nat -> nat -> A), shape (mk2 r c f) = [r; c].  Proof. reflexivity. Qed.
Lemma at_mk1 : forall A n (f : nat -> A) i, (mk1 n f).[i] = f i.  Proof. reflexivity. Qed.
Lemma at_mk2 : forall A r c (f : nat -> nat -> A) i j, (mk2 r c f).[i, j] = f i j.  Proof. reflexivity. Qed.
Lemma at_mk3 : forall A a b c (f : nat -> nat -> nat -> A) i j k, (mk3 a b c f).[i, j, k] = f i j k.
Proof. reflexivity. Qed.

Lemma mdot_ok : forall X Y r k c, shape X = [r; k] -> shape Y = [k; c] ->
  mdot X Y = Ok (mk2 r c (fun i j => sumf k (fun l => X.[i, l] * Y.[l, j]))).
Proof. intros. unfold mdot. rewrite H, H0, Nat.eqb_refl. reflexivity. Qed.

Lemma nrows_shape2 : forall A (X : nd A) r c, shape X = [r; c] -> nrows X = r.
Proof. intros A X r c H. unfold nrows. now rewrite H. Qed.
Lemma ncols_shape2 : forall A (X : nd A) r c, shape X = [r; c] -> ncols X = c.
Proof. intros A X r c H. unfold ncols. now rewrite H. Qed.

Lemma bidx_ok : forall n i, (i < n)%nat -> bidx n i = i.
Proof. intros n i H. unfold bidx. destruct (Nat.eqb_spec n 1); lia. Qed.

Lemma bcast2_same : forall A B C (f : A -> B -> C) X Y r c, shape X = [r; c] -> shape Y = [r; c] ->
  exists Z, bcast2 f X Y = Ok Z /\ shape Z = [r; c] /\
  forall i j, (i < r)%nat -> (j < c)%nat -> Z.[i, j] = f (X.[i, j]) (Y.[i, j]).
Proof.
  intros A B C f X Y r c HX HY. unfold bcast2, bdim. rewrite HX, HY, !Nat.eqb_refl.
  eexists; split; [reflexivity|]. split; [reflexivity|]. intros i j Hi Hj.
  rewrite at_mk2, !bidx_ok by auto. reflexivity.
Qed.

Lemma bcast2_row : forall A B C (f : A -> B -> C) X Y r c, shape X = [r; c] -> shape Y = [1%nat; c] ->
  exists Z, bcast2 f X Y = Ok Z /\ shape Z = [r; c] /\
  forall i j, (i < r)%nat -> (j < c)%nat -> Z.[i, j] = f (X.[i, j]) (Y.[0%nat, j]).
Proof.
  intros A B C f X Y r c HX HY. unfold bcast2. rewrite HX, HY.
  assert (E : bdim r 1 = Some r).
  { unfold bdim. destruct (Nat.eqb_spec r 1); [reflexivity|]. reflexivity. }
  unfold bdim at 2. rewrite E, Nat.eqb_refl.
  eexists; split; [reflexivity|]. split; [reflexivity|]. intros i j Hi Hj.
  rewrite at_mk2, !(bidx_ok c), (bidx_ok r) by auto. reflexivity.
Qed.

Lemma div_lt_prod : forall i a b, (i < a * b)%nat -> (i / b < a)%nat.
Proof. intros. apply Nat.div_lt_upper_bound; nia. Qed.
Lemma mod_lt_prod : forall i a b, (i < a * b)%nat -> (i mod b < b)%nat.
Proof. intros. apply Nat.mod_upper_bound. nia. Qed.
Lemma div_add_lt : forall i j b, (j < b)%nat -> ((i * b + j) / b = i)%nat.
Proof. intros. rewrite Nat.add_comm, Nat.div_add by lia. rewrite Nat.div_small; lia. Qed.
Lemma mod_add_lt : forall i j b, (j < b)%nat -> ((i * b + j) mod b = j)%nat.
Proof. intros. rewrite Nat.add_comm, Nat.mod_add by lia. rewrite Nat.mod_small; lia. Qed.
