(** Theorems added after mutation testing (seeded/LOG.jsonl): parts of C15, C33, C48, C59 that
    the first versions left to the model's own definitions. *)
Set Warnings "-notation-overridden,-ambiguous-paths".
From mathcomp Require Import all_ssreflect all_algebra.
From mathcomp Require Import zify.
From Coq Require Import String.
From Verif Require Import Py Nd Spec LinAlg Dmx DmxProofs LgpModel LinProps IterModel IterProps Xnum
  UtilModel DensityModel NdProofs BayesModel StModel StProps3.
Set Implicit Arguments. Unset Strict Implicit. Unset Printing Implicit Defensive.
Import Order.Theory GRing.Theory Num.Theory.
Local Open Scope ring_scope.

(** ** C59: what a mask picks *)
(** The position of an index counted from the end if it is negative. *)
Definition from_end (n : nat) (i : int) : int := if i < 0 then i + n%:Z else i.
(** The positions [I] an optional mask asks for out of [n]: all; the listed ones, each in
    range; the marked ones, one mark per position, in order; those of a slice, in order. *)
Definition asks (n : nat) (m : option mask) (I : seq nat) : Prop :=
  match m with
  | None => I = iota 0 n
  | Some (MInts l) => size I = size l /\
      forall k, (k < size l)%N -> (nth 0%N I k < n)%N /\ (nth 0%N I k)%:Z = from_end n (nth 0 l k)
  | Some (MBools l) => [/\ size l = n, sorted ltn I & forall i, (i \in I) = (i < n)%N && nth false l i]
  | Some (MSlice a b) => sorted ltn I /\
      forall i, (i \in I) = [&& (i < n)%N, if a is Some a then from_end n a <= i%:Z else true
                                  & if b is Some b then i%:Z < from_end n b else true]
  end.
(** A mask that is out of range or of the wrong length. *)
Definition invalid (n : nat) (m : option mask) : Prop :=
  match m with
  | Some (MInts l) => exists2 i, i \in l & ~~ ((- n%:Z <= i) && (i < n%:Z))
  | Some (MBools l) => size l <> n
  | _ => False
  end.

Lemma from_endP n k : from_end n (Posz k) = k%:Z. Proof. by []. Qed.
Lemma from_endN n k : from_end n (Negz k) = n%:Z - k.+1%:Z.
Proof. by rewrite /from_end NegzE; case: ifP; lia. Qed.

Lemma wrapsE n i : wraps n i =
  if (- n%:Z <= i) && (i < n%:Z) then Some (absz (from_end n i)) else None.
Proof.
rewrite /from_end; case: i => k; rewrite /wraps; case: (ltnP k n) => h; case: ifP => h' //;
  solve [congr Some; case: ifP; lia | exfalso; lia].
Qed.

Theorem C59_masks n m :
  (forall I, picked n m = Ok I -> asks n m I) /\
  ((exists I, picked n m = Ok I) \/ picked n m = Err IndexError /\ invalid n m) /\
  (invalid n m -> picked n m = Err IndexError).
Proof.
case: m => [[l|l|a b]|]; rewrite /picked; last by do !split=> //; [move=> I []|left; eexists].
- rewrite resolve_ints; split; [|split].
  + move=> I; case: ifP => // al [<-] /=; elim: l al => [|i l ih] //= /andP [hi al].
    have [sz h] := ih al; move: hi; rewrite wrapsE; case: ifP => // /andP [h1 h2] _ /=.
    rewrite sz; split=> // -[_|k hk]; last exact: (h k hk).
    have h0 : 0 <= from_end n i.
      by rewrite /from_end; case: (ltrP i 0) => h3 //; rewrite -ler_subl_addr sub0r.
    rewrite /= gez0_abs // -ltz_nat gez0_abs //; split=> //; rewrite /from_end.
    by case: (ltrP i 0) => h3 //; rewrite -ltr_subr_addr subrr.
  + case: (boolP (all _ l)) => al; first by left; eexists.
    right; split=> //; case/allPn: al => i il; rewrite wrapsE => hi; exists i => //.
    by move: hi; case: ifP.
  + by case=> i il hi; case: ifP => // /allP /(_ i il); rewrite wrapsE (negbTE hi).
- rewrite /resolve; split; [|split].
  + move=> I; case: eqP => // e [<-]; split=> //.
      by apply: sorted_filter; [exact: ltn_trans|exact: iota_ltn_sorted].
    by move=> i; rewrite mem_filter mem_iota add0n andbC.
  + by case: eqP => e; [left; eexists|right].
  + by move=> h; case: eqP.
- split; [|split=> //]; last by left; eexists.
  rewrite resolve_slice => I [<-]; split; first exact: iota_ltn_sorted.
  move=> i; rewrite mem_iota; set lo := slice_bound n 0 a; set hi := slice_bound n n b.
  rewrite /lo /hi; case: a {lo} => [[a|a]|]; case: b {hi} => [[b|b]|];
    rewrite /slice_bound ?from_endP ?from_endN; lia.
Qed.

(** ** C33: which rows the iterative solvers visit *)
(** A negative index counts from the end; there is no other row of that name. *)
Theorem C33_rows m i (k : 'I_m) : names_row i k <-> k%:Z = from_end m i.
Proof.
rewrite /names_row; have hk := ltn_ord k; case: i => j; rewrite ?from_endP ?from_endN; cbn [py_index].
  case: ifP => h; split=> [e|e]; first by have {}e : _ = _ := f_equal (fun r => if r is Ok x then x else 0%N) e; lia.
  - by congr Ok; lia.
  - by [].
  - by exfalso; lia.
case: ifP => h; split=> [e|e]; first by have {}e : _ = _ := f_equal (fun r => if r is Ok x then x else 0%N) e; lia.
- by congr Ok; lia.
- by [].
- by exfalso; lia.
Qed.

(** Without a schedule every row is visited once, from the first to the last. *)
Theorem C33_default_schedule (R : realFieldType) m n (A : nd R) b y mean cov dcov e :
  shape A = [:: m; n] ->
  iterate A b y mean cov dcov e None =
  iterate A b y mean cov dcov e (Some [seq Posz k | k <- iota 0 m]).
Proof.
move=> sA; have pe v : performEpoch A b y v cov dcov None =
    performEpoch A b y v cov dcov (Some [seq Posz k | k <- iota 0 m]).
  by rewrite /performEpoch /dim sA.
rewrite /iterate pe; case: (performEpoch _ _ _ _ _ _ _) => [c|] //=.
by case: e => [e|_] //=; elim: e.-1 c => //= k ih c; rewrite pe; case: (performEpoch _ _ _ _ _ _ _) => //=.
Qed.

(** ** C15: what the plain attributes are *)
Theorem C15_attributes (R : realFieldType) (p : lgp R) :
  let get (s : string) := getattribute p s in
  [/\ [/\ get "A"%string = Ok (LgpModel.VArr (lA p)), get "b"%string = Ok (LgpModel.VArr (lb p)) & get "y"%string = Ok (LgpModel.VArr (ly p))],
      [/\ get "mean_i"%string = Ok (LgpModel.VArr (lmean p)), get "cov_i"%string = Ok (LgpModel.VArr (lcovi p)),
          get "cov_o"%string = Ok (LgpModel.VArr (lcovo p)) & get "alpha"%string = Ok (LgpModel.VNum (lalpha p))],
      get "n_params"%string = Ok (LgpModel.VNat R (dc (lA p))), get "n_features"%string = Ok (LgpModel.VNat R (dc (ly p)))
    & get "n_samples"%string = Ok (LgpModel.VNat R (dr (ly p)))].
Proof. by []. Qed.

(** ** C48: the default prior is uniform over the domain *)
Section Prior.
Variables (R : rcfType) (D : Type).
Variable pdf : D -> nd R -> res (pdfval (xnum R)).
Variable uniform : seq R -> seq R -> D.

Theorem C48_default_prior (s : bprob R D) n (lo hi : nat -> R) :
  rows (bdom s) = [seq [:: lo j; hi j] | j <- iota 0 n] -> dim (bdom s) 1 = 2%N ->
  (forall j, (j < n)%N -> lo j <= hi j) ->
  set_prior pdf uniform s None =
  set_prior pdf uniform s (Some (uniform [seq lo j | j <- iota 0 n] [seq hi j - lo j | j <- iota 0 n])).
Proof.
move=> er d2 le.
have e1 : [seq (@np_min R \o (fun j => [:: lo j; hi j])) j | j <- iota 0 n] = [seq lo j | j <- iota 0 n].
  apply/eq_in_map => j; rewrite mem_iota add0n => hj /=.
  apply: np_min_uniq; first by rewrite inE eqxx.
  by move=> x; rewrite !inE => /orP [] /eqP ->; rewrite ?le.
have e2 : [seq (@np_max R \o (fun j => [:: lo j; hi j])) j | j <- iota 0 n] = [seq hi j | j <- iota 0 n].
  apply/eq_in_map => j; rewrite mem_iota add0n => hj /=.
  apply: np_max_uniq; first by rewrite !inE eqxx orbT.
  by move=> x; rewrite !inE => /orP [] /eqP ->; rewrite ?le.
have e3 : default_prior uniform (bdom s) =
    Ok (uniform [seq lo j | j <- iota 0 n] [seq hi j - lo j | j <- iota 0 n]).
  rewrite /default_prior d2 /= er -!map_comp e1 e2; congr (Ok (uniform _ _)).
  by elim: (iota 0 n) => //= j l ->.
by rewrite /set_prior e3.
Qed.
End Prior.

(** Concrete cases. *)
Example ex_C48_default_prior (R : rcfType) (D : Type) :
  let s : bprob R D := BP (Nd [:: 1%N; 2%N] [:: 0; 3%:R]) (nd1 [:: 0]) (Nd [:: 2%N; 2%N] [:: 0; 1; 2%:R; 5%:R])
     None None None false None None in
  rows (bdom s) = [seq [:: nth 0 [:: 0; 2%:R] j; nth 0 [:: 1; 5%:R] j] | j <- iota 0 2] /\ dim (bdom s) 1 = 2%N.
Proof. by []. Qed.
Example ex_C59_masks : asks 5 (Some (MSlice (Some (Negz 2)) (Some (Negz 0)))) [:: 2; 3]%N /\
  invalid 5 (Some (MInts [:: Negz 5])).
Proof.
split; last by exists (Negz 5); rewrite ?inE.
by apply: (proj1 (C59_masks 5 _)).
Qed.
Example ex_C33_rows : names_row (Negz 0) (ord_max : 'I_3). Proof. by apply/C33_rows. Qed.
