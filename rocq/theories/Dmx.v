(** Two-dimensional numeric numpy arrays with run-time shapes.
    The operations raise exactly when numpy does on shape grounds; entries are
    exact elements of a real field. *)
Set Warnings "-notation-overridden,-ambiguous-paths".
From mathcomp Require Import all_ssreflect all_algebra.
From Verif Require Import Py Nd Spec LinAlg.
Set Implicit Arguments. Unset Strict Implicit. Unset Printing Implicit Defensive.
Import Order.Theory GRing.Theory Num.Theory.
Local Open Scope ring_scope.

Record dmx (R : realFieldType) := Dmx { dr : nat; dc : nat; dval : 'M[R]_(dr, dc) }.
Arguments Dmx {R dr dc} dval.

Section Dmx.
Variable R : realFieldType.
Notation dmx := (dmx R).
Implicit Types a b : dmx.

(** Entry [a[i,j]] (0 out of range; only used in range). *)
Definition dget a (i j : nat) : R :=
  match insub i, insub j with
  | Some i', Some j' => dval a i' j'
  | _, _ => 0
  end.

Definition dbuild (r c : nat) (f : nat -> nat -> R) : dmx :=
  Dmx (\matrix_(i < r, j < c) f i j).

(** [a @ b] for 2-D arrays: ValueError on an inner-dimension mismatch. *)
Definition dmul a b : res dmx :=
  match dc a =P dr b with
  | ReflectT e => Ok (Dmx (dval a *m castmx (esym e, erefl (dc b)) (dval b)))
  | ReflectF _ => Err ValueError
  end.

(** [a.T]. *)
Definition dtr a : dmx := Dmx (dval a)^T.

(** scalar * array. *)
Definition dscale (c : R) a : dmx := Dmx (c *: dval a).

(** numpy broadcasting of one dimension. *)
Definition bdim (p q : nat) : option nat :=
  if p == q then Some p else if p == 1%N then Some q
  else if q == 1%N then Some p else None.

(** Index into a dimension of length [p] that may have been broadcast. *)
Definition bidx (p i : nat) : nat := if p == 1%N then 0%N else i.

(** Element-wise binary operation with numpy broadcasting. *)
Definition dbop (f : R -> R -> R) a b : res dmx :=
  match bdim (dr a) (dr b), bdim (dc a) (dc b) with
  | Some r, Some c =>
      Ok (dbuild r c (fun i j =>
        f (dget a (bidx (dr a) i) (bidx (dc a) j))
          (dget b (bidx (dr b) i) (bidx (dc b) j))))
  | _, _ => Err ValueError
  end.
Definition dadd := dbop (fun x y => x + y).
Definition dsub := dbop (fun x y => x - y).
Definition dhad := dbop (fun x y => x * y).

(** [a[:k, :]], [a[:k, :k]] with [k] already resolved. *)
Definition drows (k : nat) a : dmx := dbuild (minn k (dr a)) (dc a) (dget a).
Definition dblock (k l : nat) a : dmx :=
  dbuild (minn k (dr a)) (minn l (dc a)) (dget a).

Definition deye (n : nat) : dmx := Dmx (1%:M : 'M[R]_n).
Definition dzeros (r c : nat) : dmx := Dmx (0 : 'M[R]_(r, c)).

(** [np.linalg.inv]: LinAlgError on non-square or singular input. *)
Definition dinv a : res dmx :=
  match dc a =P dr a with
  | ReflectT e =>
      let M : 'M[R]_(dr a) := castmx (erefl (dr a), e) (dval a) in
      if M \in unitmx then Ok (Dmx (invmx M)) else Err LinAlgError
  | ReflectF _ => Err LinAlgError
  end.

(** [np.linalg.pinv]. *)
Definition dpinv a : dmx := Dmx (pinv (dval a)).

(** [np.sum(a, axis=0)], a 1-D array. *)
Definition dsum0 a : seq R :=
  [seq \sum_(i < dr a) dget a i j | j <- iota 0 (dc a)].

(** Element-wise operation on 1-D arrays with broadcasting. *)
Definition vbop (f : R -> R -> R) (u v : seq R) : res (seq R) :=
  match bdim (size u) (size v) with
  | Some n => Ok [seq f (nth 0 u (bidx (size u) i)) (nth 0 v (bidx (size v) i))
                 | i <- iota 0 n]
  | None => Err ValueError
  end.
Definition vadd := vbop (fun x y => x + y).
Definition vsub := vbop (fun x y => x - y).
Definition vscale (c : R) (u : seq R) : seq R := [seq c * x | x <- u].

(** A 2-D [nd] array as a dynamic matrix. *)
Definition dmx_of (a : nd R) : dmx :=
  dbuild (dim a 0) (dim a 1) (fun i j => nth 0 (data a) (i * dim a 1 + j)%N).

(** The entries of a 2-D array in row-major order ([.ravel()]). *)
Definition dravel a : seq R :=
  [seq dget a (k %/ dc a) (k %% dc a) | k <- iota 0 (dr a * dc a)].

(** [np.array(x).reshape(-1, 1)] and [.reshape(1, -1)]. *)
Definition dcol (s : seq R) : dmx := dbuild (size s) 1 (fun i _ => nth 0 s i).
Definition drow (s : seq R) : dmx := dbuild 1 (size s) (fun _ j => nth 0 s j).

End Dmx.
Arguments dmx_of {R} a.
Arguments deye {R} n.
Arguments dzeros {R} r c.
