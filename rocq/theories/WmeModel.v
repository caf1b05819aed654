(** Model of the weighted-mean-error code: util.transform_linear_map,
    util.transform_linear_setup, base.LinearWMEProblem, funs.wme. *)
Set Warnings "-notation-overridden,-ambiguous-paths".
From mathcomp Require Import all_ssreflect all_algebra.
From Coq Require Import String.
From Verif Require Import Py Nd Spec LinAlg Dmx LgpModel.
Set Implicit Arguments. Unset Strict Implicit. Unset Printing Implicit Defensive.
Import Order.Theory GRing.Theory Num.Theory.
Local Open Scope ring_scope.

Section Wme.
Variable R : rcfType.
Notation nd := (nd R).
Notation dmx := (dmx R).

(** [std] argument: a Python number, or a list / tuple / 1-D array of numbers.
    NaN and nested lists are not modelled. *)
Inductive stdarg := SNum of R | SSeq of seq R.

(** [np.sqrt(n)] of an integer. *)
Definition sqrtn (n : nat) : R := Num.sqrt n%:R.

(** [np.round(s, 14) == 0]: s * 10^14 rounds (half to even) to 0. *)
Definition rounds_to_zero (s : R) : bool := `|s| * 10%:R ^+ 14 <= 2%:R^-1.

(** Value [A] of the pair returned: a 1-D array (util.py:63) or a 2-D one
    (util.py:68). *)
Inductive rowval := Row1 of seq R | Row2 of dmx.

(** [np.atleast_2d], as [np.vstack] applies it. *)
Definition rowval2 (r : rowval) : dmx :=
  match r with Row1 s => drow s | Row2 m => m end.

(** util.py:70 [b = -1.0/np.sqrt(N) * np.sum(np.divide(data, std))].
    Simplification: for N = 0 numpy yields NaN, the model 0. *)
Definition wme_b (data : seq R) (std : nat -> R) : R :=
  - (sqrtn (size data))^-1 * \sum_(i < size data) (nth 0 data i / std i).

(** util.py:62-63 [D = np.diag(1.0/(std*np.sqrt(N))); A = np.sum(D @ operator, axis=0)].
    [1.0 / 0] cannot occur: std has been checked and N > 1. *)
Definition wme_A (op : dmx) (N : nat) (std : nat -> R) : seq R :=
  [seq \sum_(i < dr op) ((std i * sqrtn N)^-1 * dget op i j) | j <- iota 0 (dc op)].

(** util.py:19-72 transform_linear_map; the same code is
    base.py:1376-1420 LinearWMEProblem._transform_linear_map.
    [operator] is a 2-D array; [data] a list or an array (raveled). *)
Definition transform_linear_map (op : dmx) (data : seq R) (std : stdarg)
  : res (rowval * R) :=
  let N := size data in
  if (1 < dr op)%N then
    _ <- guard (dr op == N) AssertionError ;;
    let s := match std with SNum r => nseq N r | SSeq s => s end in
    _ <- guard (size s == N) AssertionError ;;
    _ <- guard (~~ has rounds_to_zero s) AssertionError ;;
    Ok (Row1 (wme_A op N (nth 0 s)), wme_b data (nth 0 s))
  else
    match std with
    | SSeq _ => Err ValueError
    | SNum r =>
        _ <- guard ((10%:R ^+ 14)^-1 < r) AssertionError ;;
        Ok (Row2 (dscale (sqrtn N / r) op), wme_b data (fun _ => r))
    end.

(** [np.vstack] of 2-D blocks: ValueError for no blocks or different widths. *)
Definition vstack (ms : seq dmx) : res dmx :=
  match ms with
  | [::] => Err ValueError
  | m :: ms' =>
      if all (fun m' => dc m' == dc m) ms'
      then let rows := flatten [seq [seq (m', i) | i <- iota 0 (dr m')] | m' <- ms] in
           Ok (dbuild (size rows) (dc m)
                 (fun i j => let r := nth (m, 0%N) rows i in dget r.1 r.2 j))
      else Err ValueError
  end.

(** [sigma] / [std_list] argument: a number, or a list with one entry per QoI. *)
Inductive stdlist := LNum of R | LSeq of seq stdarg.

(** [zip(operator_list, data_list, std_list)]. *)
Definition zip3 A B C (a : seq A) (b : seq B) (c : seq C) : seq (A * (B * C)) :=
  zip a (zip b c).

(** util.py:75-85 transform_linear_setup (list comprehension, then vstack). *)
Definition transform_linear_setup (ops : seq dmx) (datas : seq (seq R)) (stds : stdlist)
  : res (dmx * dmx) :=
  let sl := match stds with LNum r => nseq (size datas) (SNum r) | LSeq s => s end in
  rs <- rmapM (fun t => transform_linear_map t.1 t.2.1 t.2.2) (zip3 ops datas sl) ;;
  A <- vstack [seq rowval2 r.1 | r <- rs] ;;
  b <- vstack [seq drow [:: r.2] | r <- rs] ;;
  Ok (A, b).

Definition nd_of_dmx (m : dmx) : nd := Nd [:: dr m; dc m] (dravel m).

(** base.py:1343-1367 LinearWMEProblem.__init__ *)
Definition lwme_init (ops : seq dmx) (datas : seq (seq R)) (sigma : stdlist)
    (y mean_i : option nd) (cov_i cov_o : option dmx) (alpha : option R) : res (lgp R) :=
  let sl := match sigma with LNum r => nseq (size datas) (SNum r) | LSeq s => s end in
  rs <- rmapM (fun t => transform_linear_map t.1 t.2.1 t.2.2) (zip3 ops datas sl) ;;
  A <- vstack [seq rowval2 r.1 | r <- rs] ;;
  B <- vstack [seq drow [:: r.2] | r <- rs] ;;
  lgp_init (nd_of_dmx A) (Some (nd_of_dmx B)) y mean_i cov_i cov_o alpha.

(** [np.std]: population standard deviation of all entries. *)
Definition np_std (s : seq R) : R :=
  let mean := (\sum_(x <- s) x) / (size s)%:R in
  Num.sqrt ((\sum_(x <- s) (x - mean) ^+ 2) / (size s)%:R).

(** The array numpy sees for [data] in [predictions - data]: a list or 1-D array
    broadcasts as a row. *)
Definition as_row_or_2d (a : nd) : dmx :=
  if ndim a == 1%N then drow (data a) else dmx_of a.

(** funs.py:23-47 wme.  [predictions] has one or two dimensions (0-d: IndexError);
    [data] one or two.  Simplification: [sd = 0] (numpy: inf or NaN) is not
    meaningful in the model. *)
Definition wme (predictions dat : nd) (sd : option R) : res (seq R) :=
  let sd := if sd is Some s then s else np_std (data dat) in
  p2 <- (if ndim predictions == 1%N
         then np_reshape [:: Some 1%N; None] predictions else Ok predictions) ;;
  if (ndim p2 < 2)%N then Err IndexError else
  let N := dim p2 1 in
  if N != dim dat 0 then Err ValueError else
  d <- dsub (dmx_of p2) (as_row_or_2d dat) ;;
  Ok [seq \sum_(j < dc d) ((sd * sqrtn N)^-1 * dget d i j) | i <- iota 0 (dr d)].

End Wme.
