(** Properties C34, C35: IterativeLinearProblem.solve, get_errors and
    iter_lin_solve. *)
Set Warnings "-notation-overridden,-ambiguous-paths".
From mathcomp Require Import all_ssreflect all_algebra.
From Coq Require Import String.
From Verif Require Import Py Nd Spec LinAlg Dmx DmxProofs LgpModel IterModel IterProps.
Set Implicit Arguments. Unset Strict Implicit. Unset Printing Implicit Defensive.
Import Order.Theory GRing.Theory Num.Theory.
Local Open Scope ring_scope.

Section IlpSolve.
Variable R : realFieldType.

(** The row [i] exists in [A], [b] and [y]. *)
Definition row_exists (p : ilp R) (i : int) : bool :=
  [&& is_ok (py_index (dr (iA p)) i), is_ok (py_index (size (ib p)) i)
    & is_ok (py_index (size (iy p)) i)].

Lemma py_index_err n i : is_ok (py_index n i) = false -> py_index n i = Err IndexError.
Proof. by case: i => k /=; case: ifP. Qed.

Lemma ilp_epoch_cons p i s sols :
  ilp_epoch p (i :: s) sols = Err (if row_exists p i then TypeError else IndexError).
Proof.
rewrite /ilp_epoch /row_exists.
case h1: (is_ok (py_index (dr (iA p)) i)); last by rewrite (py_index_err h1).
case: (py_index _ i) h1 => // k1 _; cbn [rbind andb].
case h2: (is_ok (py_index (size (ib p)) i)); last by rewrite (py_index_err h2).
case: (py_index _ i) h2 => // k2 _; cbn [rbind andb].
case h3: (is_ok (py_index (size (iy p)) i)); last by rewrite (py_index_err h3).
by case: (py_index _ i) h3.
Qed.

(** Whatever the problem, a [solve] that has work to do raises, and leaves the object
    as it was. *)
Theorem C34_solve_never_returns (p : ilp R) (e : nat) i rest :
  iorder p = i :: rest ->
  ilp_solve p (Posz e.+1) = (p, Err (if row_exists p i then TypeError else IndexError)).
Proof. by rewrite /ilp_solve /= => ->; rewrite ilp_epoch_cons. Qed.

(** Nothing scheduled: the chain stays at its starting point. *)
Definition chain_start (p : ilp R) : dmx R :=
  if ichains p is [::] then imu p else last (imu p) (last [::] (ichains p)).

Lemma last_rcons_last T (d x : T) s : last d (rcons s x) = x.
Proof. by rewrite last_rcons. Qed.

Lemma empty_epochs (p : ilp R) k sols : iorder p = [::] ->
  ilp_epochs p k sols
  = (set_chains p (ichains p ++ nseq k [:: last (imu p) sols]), Ok tt).
Proof.
elim: k p sols => [|k IH] p sols h /=; first by case: p h => *; rewrite /= cats0.
rewrite h /= IH //=; congr (_, _); rewrite /set_chains /=; congr Ilp.
by rewrite -cats1 -catA.
Qed.

Theorem C34_solve_empty_schedule (p : ilp R) (e : nat) : iorder p = [::] ->
  let r := ilp_solve p (Posz e.+1) in
  r.2 = Ok (chain_start p) /\ ichains r.1 = ichains p ++ nseq e.+1 [:: chain_start p].
Proof.
move=> h; rewrite /ilp_solve empty_epochs //=; split=> //.
case E: (_ ++ _) => [|c cs]; first by move/(congr1 size): E; rewrite size_cat /= addnS.
have -> : last [::] (c :: cs) = [:: chain_start p].
  rewrite -E last_cat /= -/(chain_start p).
  by elim: (e) => //= e' _; elim: e'.
by [].
Qed.

(** No epochs asked for: the last point of the last chain, IndexError without one. *)
Theorem C34_solve_no_epochs (p : ilp R) (e : int) : e <= 0 ->
  ilp_solve p e = (p, if ichains p is [::] then Err IndexError
                      else if last [::] (ichains p) is [::] then Err IndexError
                      else Ok (chain_start p)).
Proof.
rewrite /ilp_solve /chain_start; case: e => [[|k]|k] //= _; case: (ichains p) => //.
Qed.

(** A freshly built problem with data, schedule defaulted, never solves. *)
Theorem C34_default_never_solves (A : dmx R) b y mu cov dcov (e : nat) :
  (0 < dr A)%N -> (forall v, b = Some v -> size v = dr A) ->
  (forall v, y = Some v -> size v = dr A) ->
  (ilp_solve (ilp_init A b y mu cov dcov None) (Posz e.+1)).2 = Err TypeError.
Proof.
move=> A0 hb hy; case E: (iota 0 (dr A)) => [|i s].
  by move/(congr1 size): E A0; rewrite size_iota => ->.
have i0 : i = 0%N by move: E; case: (dr A) A0 => //= k _ [].
rewrite (@C34_solve_never_returns _ _ (Posz i) [seq Posz k | k <- s]); last by rewrite /= E.
rewrite /row_exists /= i0 A0 /=.
have -> : size (odflt (nseq (dr A) 0) b) = dr A.
  by case: b hb => /= [v ->|_] //; rewrite size_nseq.
have -> : size (odflt (nseq (dr A) 0) y) = dr A.
  by case: y hy => /= [v ->|_] //; rewrite size_nseq.
by rewrite A0.
Qed.

Theorem C34_iter_lin_solve_never_returns (A : dmx R) b y mean cov dcov method e idx :
  iter_lin_solve A b y mean cov dcov method e idx = Err TypeError.
Proof. by []. Qed.
End IlpSolve.

Section IlpErrs.
Variable R : rcfType.

(** Histories of public calls on one object. *)
Inductive ilp_reach : ilp R -> Prop :=
| IR_init A b y mu cov dcov idx : ilp_reach (ilp_init A b y mu cov dcov idx)
| IR_solve p e : ilp_reach p -> ilp_reach (ilp_solve p e).1
| IR_errors p ref : ilp_reach p -> ilp_reach (ilp_get_errors p ref).1.

Lemma reach_trivial p : ilp_reach p ->
  all (fun c => size c == 1%N) (ichains p) /\ ierrors p = [::].
Proof.
elim=> [//|p' e _ [h1 h2]|p' ref _ [h1 h2]].
- case: e => [[|e]|e]; try by rewrite C34_solve_no_epochs.
  case E: (iorder p') => [|i s]; last by rewrite (C34_solve_never_returns _ E).
  have [_ ch] := @C34_solve_empty_schedule _ p' e E.
  rewrite /ilp_solve empty_epochs //= in ch *; split; last by [].
  by rewrite all_cat h1 /= all_nseq orbT.
- rewrite /ilp_get_errors; case Ec: (ichains p') => [|c cs]; first by rewrite Ec.
  case: ifP => _; first by rewrite Ec -Ec.
  have -> : flatten [seq behead x | x <- c :: cs] = [::].
    move: h1; rewrite Ec; elim: (c :: cs) => //= x xs IH /andP [hx hxs].
    by rewrite IH // cats0; case: x hx => // y [].
  by rewrite h2 /= Ec -Ec.
Qed.

(** Whatever has been called before, [get_errors] has nothing to report: an empty list,
    or ValueError before the first (empty-schedule) solve. *)
Theorem C35_reachable_errors p ref : ilp_reach p ->
  (ilp_get_errors p ref).2 = if ichains p is [::] then Err ValueError else Ok [::].
Proof.
move/reach_trivial => [h1 h2]; rewrite /ilp_get_errors.
case Ec: (ichains p) h1 => [//|c cs] h1.
have no : has (fun t => size t != 0%N) [seq behead x | x <- c :: cs] = false.
  move: h1; elim: (c :: cs) => //= x xs IH /andP [hx hxs].
  by rewrite IH // orbF; case: x hx => // y [].
rewrite no andbF.
have -> : flatten [seq behead x | x <- c :: cs] = [::].
  move: h1; elim: (c :: cs) => //= x xs IH /andP [hx hxs].
  by rewrite IH // cats0; case: x hx => // y [].
by rewrite h2.
Qed.

(** The points of the chains after each starting point. *)
Definition chain_points (p : ilp R) : seq (dmx R) := flatten [seq behead c | c <- ichains p].

(** Euclidean distance of two columns. *)
Definition dist n (u v : 'cV[R]_n) : R := Num.sqrt (sqnorm (u - v)).

Lemma norm2_col n (u v : 'cV[R]_n) :
  exists d, dsub (Dmx u) (Dmx v) = Ok d /\ norm2 d = dist u v.
Proof.
have [d [e [_ hd]]] : exists d, dsub (Dmx u) (Dmx v) = Ok d /\
   (True /\ d = Dmx (u - v)).
  exists (Dmx (u - v)); split=> //; rewrite /dsub /dbop /bdim /= !eqxx.
  congr Ok; rewrite /dbuild; congr Dmx; apply/matrixP=> i j.
  rewrite !mxE /bidx /= (ord1 j).
  have bi : (if n == 1 then 0 else i)%N = i :> nat.
    by case: eqP => // n1; move: (ltn_ord i); rewrite {2}n1; case: (nat_of_ord i).
  by rewrite bi -[0%N]/(nat_of_ord (ord0 : 'I_1)) !dgetE.
exists d; split=> //; rewrite hd /norm2 /dist /sqnorm /dotv /=; congr Num.sqrt.
by apply: eq_bigr => i _; rewrite big_ord1 -[0%N]/(nat_of_ord (ord0 : 'I_1)) dgetE.
Qed.

(** First call (nothing cached for this number of points): the distances asked for. *)
Theorem C35_first_call n (p : ilp R) (us : seq 'cV[R]_n) (ref : 'cV[R]_n) :
  ichains p <> [::] -> all (fun c => 1 < size c)%N (ichains p) ->
  chain_points p = [seq Dmx u | u <- us] ->
  size (ierrors p) <> size us ->
  (ilp_get_errors p (Dmx ref)).2 = Ok [seq dist u ref | u <- us] /\
  ierrors (ilp_get_errors p (Dmx ref)).1 = [seq dist u ref | u <- us].
Proof.
move=> c0 hc hp /eqP he; rewrite /ilp_get_errors -/(chain_points p) hp.
have no : has (fun t => size t == 0%N) [seq behead x | x <- ichains p] = false.
  by elim: (ichains p) hc => //= x xs IH /andP [hx hxs]; rewrite IH //; case: x hx => [|? []].
rewrite no /= size_map eq_sym he.
have -> : rmapM (fun s => d <- dsub s (Dmx ref);; Ok (norm2 d)) [seq Dmx u | u <- us]
   = Ok [seq dist u ref | u <- us].
  elim: us {hp he} => //= u us ->.
  by have [d [-> hd]] := norm2_col u ref; rewrite /= hd.
by case: (ichains p) c0.
Qed.

(** Every later call, whatever the reference, repeats that answer, as long as the
    number of points is the same. *)
Theorem C35_later_calls_repeat (p : ilp R) ref ref' es :
  (ilp_get_errors p ref).2 = Ok es ->
  (ilp_get_errors (ilp_get_errors p ref).1 ref').2 = Ok es.
Proof.
rewrite {1 3}/ilp_get_errors; case Ec: (ichains p) => [|c cs] //.
case: ifP => // hz; case: ifP => [hs|/negbT hs].
  case E: (rmapM _ _) => [es'|] //= [<-].
  have szE : size es' = size (flatten [seq behead c0 | c0 <- c :: cs]).
    elim: (flatten _) es' E => [|x xs IH] es' /=; first by case=> <-.
    case: (rbind (dsub x ref) _) => //= r; case: (rmapM _ _) IH => //= l IH [<-] /=.
    by rewrite (IH l).
  by rewrite /ilp_get_errors /= Ec hz szE eqxx.
by move=> /= [<-]; rewrite /ilp_get_errors Ec hz (negbTE hs).
Qed.

(** So with chains assigned by hand the second answer can be wrong. *)
Theorem C35_stale_errors_refuted :
  exists (p : ilp R) (u ref ref' : 'cV[R]_1),
    chain_points p = [:: Dmx u] /\
    (ilp_get_errors (ilp_get_errors p (Dmx ref)).1 (Dmx ref')).2 <> Ok [:: dist u ref'].
Proof.
pose p0 := ilp_init (Dmx (1%:M : 'M[R]_1)) None None None None None None.
pose p := set_chains p0 [:: [:: Dmx (0 : 'cV[R]_1); Dmx (0 : 'cV[R]_1)]].
exists p, 0, 0, 1; split=> //.
have h : (ilp_get_errors p (Dmx (0 : 'cV_1))).2 = Ok [:: dist (0 : 'cV[R]_1) 0].
  have := @C35_first_call _ p [:: 0 : 'cV[R]_1] 0.
  by case.
rewrite (C35_later_calls_repeat _ h) => -[]; rewrite /dist subrr sub0r /sqnorm /dotv !big_ord1.
rewrite !mxE /= !mulr1n mulrN1 opprK mul0r sqrtr0 sqrtr1 => /eqP.
by rewrite eq_sym oner_eq0.
Qed.

End IlpErrs.
