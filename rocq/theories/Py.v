(** Python-level notions: exceptions as values, dynamic values, the effect
    monad (global random state, user-function state, call log, files). *)
From Coq Require Import Reals Lra Lia List Arith ZArith String.
From Verif Require Import Prelude.
Import ListNotations.
Open Scope R_scope.

(** ** Exceptions *)

Inductive exn : Type :=
| TypeError | ValueError | IndexError | AttributeError | NotImplementedError
| LinAlgError | ZeroDivisionError | OverflowError | NameError
| Exc (msg : string)      (** [raise Exception(msg)] *)
| UserExn (code : nat).   (** raised by a user-supplied callable *)

Inductive res (A : Type) : Type :=
| Ok (a : A)
| Err (e : exn).
Arguments Ok {A} a.
Arguments Err {A} e.

Definition rbind {A B} (x : res A) (k : A -> res B) : res B :=
  match x with Ok a => k a | Err e => Err e end.

Notation "'do' x <- m ; k" := (rbind m (fun x => k))
  (at level 200, x pattern, m at level 100, k at level 200, right associativity).

Definition guard (b : bool) (e : exn) : res unit := if b then Ok tt else Err e.

Lemma rbind_ok : forall {A B} (x : res A) (k : A -> res B) b,
  rbind x k = Ok b -> exists a, x = Ok a /\ k a = Ok b.
Proof. intros A B [a|e] k b H; simpl in H; [eauto|discriminate]. Qed.

Definition is_ok {A} (x : res A) : Prop := exists a, x = Ok a.
Definition is_err {A} (x : res A) : Prop := exists e, x = Err e.

Fixpoint mapr {A B} (f : A -> res B) (l : list A) : res (list B) :=
  match l with
  | [] => Ok []
  | x :: t => do y <- f x; do ys <- mapr f t; Ok (y :: ys)
  end.

(** ** Dynamically typed arguments *)

(** A value whose type the code tests with [isinstance]: either it has the
    wanted type, or it is something else. *)
Inductive pyarg (A : Type) : Type :=
| IsA (a : A)
| NotA.
Arguments IsA {A} a.
Arguments NotA {A}.

(** An optional argument whose default is [None]. *)
Definition pyopt (A : Type) := option A.

(** ** The world *)

(** A pseudo random number generator: a state, seeding, and the draws used by
    the library.  Every theorem quantifies over all such generators. *)
Record gen : Type := Gen {
  gst : Type;
  g_seed : nat -> gst;
  g_normal : gst -> R * gst;
  g_unif : gst -> R * gst;              (** in [0,1) *)
  g_randint : nat -> gst -> nat * gst;  (** in 0..hi-1 *)
  g_unif_spec : forall s, 0 <= fst (g_unif s) < 1;
  g_randint_spec : forall hi s, (0 < hi)%nat -> (fst (g_randint hi s) < hi)%nat
}.

Record world (G : gen) (U : Type) (L : Type) : Type := World {
  rng : gst G;       (** numpy's global random state *)
  usr : U;           (** whatever state the user's callables have *)
  calls : list L;    (** arguments of user-function calls, oldest first *)
  files : nat        (** number of dump files written *)
}.
Arguments World {G U L}.
Arguments rng {G U L}.
Arguments usr {G U L}.
Arguments calls {G U L}.
Arguments files {G U L}.

Definition M (W A : Type) : Type := W -> res A * W.

Definition mret {W A} (a : A) : M W A := fun w => (Ok a, w).
Definition merr {W A} (e : exn) : M W A := fun w => (Err e, w).
Definition mbind {W A B} (m : M W A) (k : A -> M W B) : M W B :=
  fun w => match m w with
           | (Ok a, w') => k a w'
           | (Err e, w') => (Err e, w')
           end.
Definition mlift {W A} (r : res A) : M W A := fun w => (r, w).

Notation "'dom' x <- m ; k" := (mbind m (fun x => k))
  (at level 200, x pattern, m at level 100, k at level 200, right associativity).

(** [for x in l: acc = body acc x] *)
Fixpoint mfold {W A B} (body : B -> A -> M W B) (acc : B) (l : list A) : M W B :=
  match l with
  | [] => mret acc
  | x :: t => dom acc' <- body acc x; mfold body acc' t
  end.

Fixpoint mmap {W A B} (f : A -> M W B) (l : list A) : M W (list B) :=
  match l with
  | [] => mret []
  | x :: t => dom y <- f x; dom ys <- mmap f t; mret (y :: ys)
  end.

Lemma mbind_ok : forall {W A B} (m : M W A) (k : A -> M W B) w b w2,
  mbind m k w = (Ok b, w2) -> exists a w1, m w = (Ok a, w1) /\ k a w1 = (Ok b, w2).
Proof.
  intros W A B m k w b w2 H. unfold mbind in H.
  destruct (m w) as [[a|e] w1]; [eauto|discriminate].
Qed.

Lemma mbind_err : forall {W A B} (m : M W A) (k : A -> M W B) w e w2,
  mbind m k w = (Err e, w2) ->
  m w = (Err e, w2) \/ exists a w1, m w = (Ok a, w1) /\ k a w1 = (Err e, w2).
Proof.
  intros W A B m k w e w2 H. unfold mbind in H.
  destruct (m w) as [[a|e'] w1]; [right; eauto|left; inversion H; auto].
Qed.

(** ** Random draws, user calls *)

Section Effects.
  Context {G : gen} {U L : Type}.
  Notation W := (world G U L).

  Definition set_rng (w : W) (s : gst G) : W := World s (usr w) (calls w) (files w).

  (** np.random.normal(), one value *)
  Definition draw_normal : M W R := fun w =>
    let (x, s) := g_normal G (rng w) in (Ok x, set_rng w s).
  (** np.random.uniform(lo, hi), one value *)
  Definition draw_uniform (lo hi : R) : M W R := fun w =>
    let (x, s) := g_unif G (rng w) in (Ok (lo + (hi - lo) * x), set_rng w s).
  (** np.random.randint(hi), one value; ValueError when hi <= 0 *)
  Definition draw_randint (hi : nat) : M W nat := fun w =>
    match hi with
    | O => (Err ValueError, w)
    | _ => let (x, s) := g_randint G hi (rng w) in (Ok x, set_rng w s)
    end.
  (** np.random.get_state / set_state / seed *)
  Definition get_state : M W (gst G) := fun w => (Ok (rng w), w).
  Definition set_state (s : gst G) : M W unit := fun w => (Ok tt, set_rng w s).
  Definition seed (n : nat) : M W unit := set_state (g_seed G n).

  Fixpoint repeatM {A} (n : nat) (m : M W A) : M W (list A) :=
    match n with
    | O => mret []
    | S k => dom x <- m; dom xs <- repeatM k m; mret (x :: xs)
    end.

  (** A user callable: reads and updates the user state, may raise. *)
  Definition ufun (A B : Type) : Type := A -> U -> res B * U.

  (** Calling it records the argument in the log, then runs it. *)
  Definition ucall {B} (f : ufun L B) (x : L) : M W B := fun w =>
    let (r, u) := f x (usr w) in
    (r, World (rng w) u (calls w ++ [x]) (files w)).

  (** np.savez: one more file on disk *)
  Definition savefile : M W unit := fun w =>
    (Ok tt, World (rng w) (usr w) (calls w) (S (files w))).

  Lemma repeatM_length : forall {A} n (m : M W A) w l w', repeatM n m w = (Ok l, w') -> List.length l = n.
  Proof.
    intros A. induction n; intros m w l w' H; simpl in H.
    - inversion H; reflexivity.
    - apply mbind_ok in H. destruct H as (a & w1 & H1 & H).
      apply mbind_ok in H. destruct H as (xs & w2 & H2 & H).
      inversion H; subst. simpl. f_equal. eapply IHn; eauto.
  Qed.

  Lemma repeatM_all : forall {A} (P : A -> Prop) (m : M W A),
    (forall w a w', m w = (Ok a, w') -> P a) ->
    forall n w l w', repeatM n m w = (Ok l, w') -> Forall P l.
  Proof.
    intros A P m Hm. induction n; intros w l w' H; simpl in H.
    - inversion H; constructor.
    - apply mbind_ok in H. destruct H as (a & w1 & H1 & H).
      apply mbind_ok in H. destruct H as (xs & w2 & H2 & H).
      inversion H; subst. constructor; eauto.
  Qed.

  Lemma draw_uniform_range : forall lo hi w x w', lo <= hi ->
    draw_uniform lo hi w = (Ok x, w') -> lo <= x <= hi.
  Proof.
    intros lo hi w x w' Hl H. unfold draw_uniform in H.
    pose proof (g_unif_spec G (rng w)) as Hs. destruct (g_unif G (rng w)) as [u s].
    simpl in Hs. inversion H; subst. nra.
  Qed.

  Lemma draw_randint_range : forall hi w x w',
    draw_randint hi w = (Ok x, w') -> (x < hi)%nat.
  Proof.
    intros hi w x w' H. unfold draw_randint in H. destruct hi as [|h]; [discriminate|].
    pose proof (g_randint_spec G (S h) (rng w) ltac:(lia)) as Hs.
    destruct (g_randint G (S h) (rng w)) as [u s]. simpl in Hs. inversion H; subst. auto.
  Qed.
End Effects.

(** ** Extended reals: what a float division can produce *)

Inductive xr : Type := Fin (r : R) | PInf | NInf | NaN.

Definition xneg (a : xr) : xr :=
  match a with Fin r => Fin (- r) | PInf => NInf | NInf => PInf | NaN => NaN end.
Definition xadd (a b : xr) : xr :=
  match a, b with
  | NaN, _ | _, NaN => NaN
  | Fin x, Fin y => Fin (x + y)
  | PInf, NInf | NInf, PInf => NaN
  | PInf, _ | _, PInf => PInf
  | NInf, _ | _, NInf => NInf
  end.
Definition xsub (a b : xr) : xr := xadd a (xneg b).
(** the infinity with the sign of [r]; NaN for 0 (0*inf, 0/0) *)
Definition xsgninf (r : R) : xr :=
  if Rlt_dec 0 r then PInf else if Rlt_dec r 0 then NInf else NaN.
Definition xmul (a b : xr) : xr :=
  match a, b with
  | NaN, _ | _, NaN => NaN
  | Fin x, Fin y => Fin (x * y)
  | Fin x, PInf | PInf, Fin x => xsgninf x
  | Fin x, NInf | NInf, Fin x => xsgninf (- x)
  | PInf, PInf | NInf, NInf => PInf
  | PInf, NInf | NInf, PInf => NInf
  end.
(** division; the zero divisor is taken to be +0 *)
Definition xdiv (a b : xr) : xr :=
  match a, b with
  | NaN, _ | _, NaN => NaN
  | Fin x, Fin y => if Req_EM_T y 0 then xsgninf x else Fin (x / y)
  | Fin _, _ => Fin 0
  | PInf, Fin y => if Rlt_dec y 0 then NInf else PInf
  | NInf, Fin y => if Rlt_dec y 0 then PInf else NInf
  | _, _ => NaN
  end.

Lemma xdiv_fin : forall x y, y <> 0 -> xdiv (Fin x) (Fin y) = Fin (x / y).
Proof. intros. simpl. destruct (Req_EM_T y 0); [contradiction|reflexivity]. Qed.

Lemma xdiv_zero : forall x, exists a, xdiv (Fin x) (Fin 0) = a /\ forall r, a <> Fin r.
Proof.
  intros. simpl. destruct (Req_EM_T 0 0) as [_|n]; [|now contradiction n].
  unfold xsgninf. destruct (Rlt_dec 0 x); [|destruct (Rlt_dec x 0)]; eexists; split; eauto; discriminate.
Qed.
