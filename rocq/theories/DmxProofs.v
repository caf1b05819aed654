(** How the dynamic matrix operations act on matrices of matching shapes. *)
Set Warnings "-notation-overridden,-ambiguous-paths".
From mathcomp Require Import all_ssreflect all_algebra.
From Verif Require Import Py Nd Spec LinAlg Dmx.
Set Implicit Arguments. Unset Strict Implicit. Unset Printing Implicit Defensive.
Import Order.Theory GRing.Theory Num.Theory.
Local Open Scope ring_scope.

Section DmxProofs.
Variable R : realFieldType.
Notation dmx := (dmx R).

Lemma dgetE m n (A : 'M[R]_(m, n)) (i : 'I_m) (j : 'I_n) :
  dget (Dmx A) i j = A i j.
Proof. by rewrite /dget !valK. Qed.

Lemma dget_out m n (A : 'M[R]_(m, n)) i j :
  (m <= i)%N || (n <= j)%N -> dget (Dmx A) i j = 0.
Proof.
rewrite /dget; case: insubP => [i' ? _|]; last by [].
case: insubP => [j' ? _|]; last by [].
by rewrite leqNgt [(n <= j)%N]leqNgt; move=> /orP [] /negP.
Qed.

Lemma dbuildE m n (A : 'M[R]_(m, n)) (f : nat -> nat -> R) :
  (forall (i : 'I_m) (j : 'I_n), f i j = A i j) -> dbuild m n f = Dmx A.
Proof.
by move=> h; rewrite /dbuild; congr Dmx; apply/matrixP => i j; rewrite mxE h.
Qed.

Lemma dget_build r c f i j : (i < r)%N -> (j < c)%N ->
  dget (dbuild (R:=R) r c f) i j = f i j.
Proof.
by move=> ir jc; rewrite -[i]/(nat_of_ord (Ordinal ir)) -[j]/(nat_of_ord (Ordinal jc))
  dgetE mxE.
Qed.

Lemma dmx_eta (a : dmx) : dbuild (dr a) (dc a) (dget a) = a.
Proof. by case: a => m n A /=; apply: dbuildE => i j; rewrite dgetE. Qed.

Lemma dmx_ext (a b : dmx) : dr a = dr b -> dc a = dc b ->
  (forall i j, (i < dr a)%N -> (j < dc a)%N -> dget a i j = dget b i j) -> a = b.
Proof.
case: a => m n A; case: b => m' n' B /= em en; subst m' n' => h.
congr Dmx; apply/matrixP => i j; move: (h i j (ltn_ord i) (ltn_ord j)).
by rewrite !dgetE.
Qed.

Lemma Dmx_inj m n (A B : 'M[R]_(m, n)) : Dmx A = Dmx B -> A = B.
Proof.
move=> h; apply/matrixP => i j; rewrite -!dgetE.
by rewrite -[Dmx A]/(Dmx A) h.
Qed.

Lemma dmulE m n k (A : 'M[R]_(m, n)) (B : 'M[R]_(n, k)) :
  dmul (Dmx A) (Dmx B) = Ok (Dmx (A *m B)).
Proof.
rewrite /dmul /=; case: eqP => [e|]; last by [].
by rewrite (eq_axiomK e) /= castmx_id.
Qed.

Lemma dmul_err (a b : dmx) : dc a != dr b -> dmul a b = Err ValueError.
Proof. by move=> h; rewrite /dmul; case: eqP => // e; rewrite e eqxx in h. Qed.

Lemma dmul_okE (a b c : dmx) : dmul a b = Ok c ->
  [/\ dc a = dr b, dr c = dr a & dc c = dc b].
Proof. by rewrite /dmul; case: eqP => // e [<-]. Qed.

Lemma bdim_same n : bdim n n = Some n.
Proof. by rewrite /bdim eqxx. Qed.

Lemma bidx_ord n (i : 'I_n) : bidx n i = i.
Proof.
rewrite /bidx; case: eqP => // e; case: i => i hi /=.
by move: hi; rewrite e ltnS leqn0 => /eqP.
Qed.

Lemma bidx_lt n i : (i < n)%N -> bidx n i = i.
Proof. by move=> h; rewrite -[i]/(nat_of_ord (Ordinal h)) bidx_ord. Qed.

Lemma dbopE f m n (A B : 'M[R]_(m, n)) :
  dbop f (Dmx A) (Dmx B) = Ok (Dmx (\matrix_(i, j) f (A i j) (B i j))).
Proof.
rewrite /dbop /= !bdim_same; congr Ok; apply: dbuildE => i j.
by rewrite !bidx_ord !dgetE mxE.
Qed.

Lemma daddE m n (A B : 'M[R]_(m, n)) : dadd (Dmx A) (Dmx B) = Ok (Dmx (A + B)).
Proof. by rewrite /dadd dbopE; congr (Ok (Dmx _)); apply/matrixP=> i j; rewrite !mxE. Qed.

Lemma dsubE m n (A B : 'M[R]_(m, n)) : dsub (Dmx A) (Dmx B) = Ok (Dmx (A - B)).
Proof. by rewrite /dsub dbopE; congr (Ok (Dmx _)); apply/matrixP=> i j; rewrite !mxE. Qed.

Lemma dinvE n (A : 'M[R]_n) : A \in unitmx -> dinv (Dmx A) = Ok (Dmx (invmx A)).
Proof.
move=> uA; rewrite /dinv /=; case: eqP => [e|]; last by [].
by rewrite (eq_axiomK e) /= castmx_id uA.
Qed.

Lemma dinv_sing n (A : 'M[R]_n) : A \notin unitmx -> dinv (Dmx A) = Err LinAlgError.
Proof.
move=> uA; rewrite /dinv /=; case: eqP => [e|]; last by [].
by rewrite (eq_axiomK e) /= castmx_id (negbTE uA).
Qed.

Lemma dinv_okE (a b : dmx) : dinv a = Ok b ->
  exists n (M : 'M[R]_n), [/\ a = Dmx M, M \in unitmx & b = Dmx (invmx M)].
Proof.
case: a => m n A; rewrite /dinv /=; case: eqP => // e; subst n.
rewrite castmx_id; case: ifP => // uA [<-].
by exists m, A.
Qed.

Lemma drows_ge k (a : dmx) : (dr a <= k)%N -> drows k a = a.
Proof. by move=> h; rewrite /drows (minn_idPr h) dmx_eta. Qed.

Lemma dblock_ge k l (a : dmx) : (dr a <= k)%N -> (dc a <= l)%N -> dblock k l a = a.
Proof. by move=> h1 h2; rewrite /dblock (minn_idPr h1) (minn_idPr h2) dmx_eta. Qed.

Lemma dsum0E m n (A : 'M[R]_(m, n)) :
  dsum0 (Dmx A) = [seq \sum_(i < m) A i j | j <- enum 'I_n].
Proof.
rewrite /dsum0 /= -val_enum_ord -map_comp; apply: eq_map => j /=.
by apply: eq_bigr => i _; rewrite dgetE.
Qed.

(** Shape specifications, for case analysis. *)
Variant dmul_spec (a b : dmx) : res dmx -> Prop :=
  | DmulOk c of dc a = dr b & dr c = dr a & dc c = dc b : dmul_spec a b (Ok c)
  | DmulErr of dc a <> dr b : dmul_spec a b (Err ValueError).
Lemma dmulP a b : dmul_spec a b (dmul a b).
Proof. by rewrite /dmul; case: eqP => e; constructor. Qed.

Variant dbop_spec (a b : dmx) : res dmx -> Prop :=
  | DbopOk c of bdim (dr a) (dr b) = Some (dr c) & bdim (dc a) (dc b) = Some (dc c)
    : dbop_spec a b (Ok c)
  | DbopErr of bdim (dr a) (dr b) = None \/ bdim (dc a) (dc b) = None
    : dbop_spec a b (Err ValueError).
Lemma dbopP f a b : dbop_spec a b (dbop f a b).
Proof.
rewrite /dbop; case E1: (bdim (dr a) (dr b)) => [r|]; last by constructor; left.
by case E2: (bdim (dc a) (dc b)) => [c|]; [constructor | constructor; right].
Qed.

Lemma bdimP p q r : bdim p q = Some r -> (p = q /\ r = p) \/ (p = 1%N /\ r = q) \/ (q = 1%N /\ r = p).
Proof.
rewrite /bdim; case: eqP => [-> [<-]|_]; first by left.
case: eqP => [-> [<-]|_]; first by right; left.
by case: eqP => // -> [<-]; right; right.
Qed.

Lemma bdim_None p q : bdim p q = None <-> [/\ p <> q, p <> 1%N & q <> 1%N].
Proof.
rewrite /bdim; case: eqP => [->|h1]; first by split=> // -[].
case: eqP => [->|h2]; first by split=> // -[].
by case: eqP => [->|h3]; split=> // -[].
Qed.

End DmxProofs.
