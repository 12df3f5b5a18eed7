(** Rust runtime vocabulary used by the model: panics, bounds-checked vectors, loops.
    No definition here models a particular function of /repo; each models a construct
    of the Rust language or standard library that the code of /repo uses. *)
From Coq Require Export List Arith ZArith Bool Lia.
Export ListNotations.

(** Result of running a piece of Rust code: a value, a panic, or "the fuel of the
    model ran out" (only functions with explicit fuel can return [OutOfFuel]). *)
Inductive outcome (A : Type) : Type :=
| Ok (a : A)
| Panic
| OutOfFuel.
Arguments Ok {A} a.
Arguments Panic {A}.
Arguments OutOfFuel {A}.

Definition obind {A B} (m : outcome A) (k : A -> outcome B) : outcome B :=
  match m with Ok a => k a | Panic => Panic | OutOfFuel => OutOfFuel end.

Declare Scope rust_scope.
Notation "x <- e ;; k" := (obind e (fun x => k))
  (at level 61, e at next level, right associativity) : rust_scope.
Notation "' p <- e ;; k" := (obind e (fun x => match x with p => k end))
  (at level 61, p pattern, e at next level, right associativity) : rust_scope.
Open Scope rust_scope.

Definition omap {A B} (f : A -> B) (m : outcome A) : outcome B := a <- m ;; Ok (f a).

(** [for x in xs { s = body(s, x)? }] : a loop threading a state. *)
Fixpoint foldM {A S} (f : S -> A -> outcome S) (s : S) (xs : list A) : outcome S :=
  match xs with
  | [] => Ok s
  | x :: xs' => s' <- f s x ;; foldM f s' xs'
  end.

(** [iter().map(f).collect()] where [f] may panic. *)
Fixpoint mapM {A B} (f : A -> outcome B) (xs : list A) : outcome (list B) :=
  match xs with
  | [] => Ok []
  | x :: xs' => y <- f x ;; ys <- mapM f xs' ;; Ok (y :: ys)
  end.

(** The range [lo..hi] of Rust (empty when hi <= lo). *)
Definition range (lo hi : nat) : list nat := seq lo (hi - lo).
(** The inclusive range [lo..=hi]. *)
Definition range_incl (lo hi : nat) : list nat := seq lo (S hi - lo).

(** [v[i]] : panics when out of bounds. *)
Definition idx {A} (l : list A) (i : nat) : outcome A :=
  match nth_error l i with Some a => Ok a | None => Panic end.

Fixpoint set_nth {A} (l : list A) (i : nat) (x : A) : list A :=
  match l, i with
  | [], _ => []
  | _ :: t, 0 => x :: t
  | h :: t, S j => h :: set_nth t j x
  end.

(** [v[i] = x] : panics when out of bounds. *)
Definition upd {A} (l : list A) (i : nat) (x : A) : outcome (list A) :=
  if i <? length l then Ok (set_nth l i x) else Panic.

(** [a - b] on usize / u8 with overflow checks: panics on underflow. *)
Definition usub (a b : nat) : outcome nat :=
  if b <=? a then Ok (a - b) else Panic.

(** [assert!(b)] *)
Definition assert (b : bool) : outcome unit := if b then Ok tt else Panic.

(** [Option::unwrap] *)
Definition unwrap {A} (o : option A) : outcome A :=
  match o with Some a => Ok a | None => Panic end.

(** [v.insert(i, x)] (Vec or VecDeque): panics when i > len. *)
Definition insert_at {A} (l : list A) (i : nat) (x : A) : outcome (list A) :=
  if i <=? length l then Ok (firstn i l ++ x :: skipn i l) else Panic.

(** The list without its i-th element (unchanged when out of range):
    VecDeque::remove returns None and changes nothing when out of range. *)
Definition delete_nth {A} (l : list A) (i : nat) : list A :=
  firstn i l ++ skipn (S i) l.

(** Vec::remove: panics when out of range. *)
Definition remove_at {A} (l : list A) (i : nat) : outcome (list A) :=
  if i <? length l then Ok (delete_nth l i) else Panic.

(** [&v[lo..hi]]: panics when lo > hi or hi > len. *)
Definition slice {A} (l : list A) (lo hi : nat) : outcome (list A) :=
  if (lo <=? hi) && (hi <=? length l) then Ok (firstn (hi - lo) (skipn lo l)) else Panic.

(** [v.windows(k)] for k >= 1: all contiguous sublists of length k. *)
Definition windows {A} (k : nat) (l : list A) : list (list A) :=
  map (fun i => firstn k (skipn i l)) (seq 0 (length l + 1 - k)).

(** [v.windows(2)] as pairs. *)
Fixpoint pairs {A} (l : list A) : list (A * A) :=
  match l with
  | a :: ((b :: _) as t) => (a, b) :: pairs t
  | _ => []
  end.

(** [v.chunks(3)]: blocks of three, the last one may be shorter. *)
Fixpoint chunks3 {A} (l : list A) : list (list A) :=
  match l with
  | a :: b :: c :: t => [a; b; c] :: chunks3 t
  | [] => []
  | short => [short]
  end.

(** [iter().rposition(p)]: index of the last element satisfying p. *)
Fixpoint rposition {A} (p : A -> bool) (l : list A) : option nat :=
  match l with
  | [] => None
  | x :: t =>
      match rposition p t with
      | Some i => Some (S i)
      | None => if p x then Some 0 else None
      end
  end.

(** [iter().position(p)]: index of the first element satisfying p. *)
Fixpoint position {A} (p : A -> bool) (l : list A) : option nat :=
  match l with
  | [] => None
  | x :: t => if p x then Some 0 else
      match position p t with Some i => Some (S i) | None => None end
  end.

(** [iter().enumerate()] *)
Definition enumerate {A} (l : list A) : list (nat * A) := combine (seq 0 (length l)) l.

(** [n as u32] for a usize n. *)
Definition as_u32 (n : nat) : N := (N.of_nat n mod 2 ^ 32)%N.
(** [n as u8] for a usize n. *)
Definition as_u8 (n : nat) : nat := n mod 256.
