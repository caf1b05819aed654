(** Properties of funs.mud_problem and funs.map_problem (C65, C96-C98). *)
Set Warnings "-notation-overridden,-ambiguous-paths".
From mathcomp Require Import all_ssreflect all_algebra.
From Coq Require Import String.
From Verif Require Import Py Nd Spec LinAlg Dmx LgpModel WmeModel LinProps WmeProps WmeProps2.
From Verif Require Import Xnum XnumProofs UtilModel DensityModel NdProofs BayesModel UtilModel2 UtilProps
  StModel StProps StProps2 StProps3 FunsModel.
Set Implicit Arguments. Unset Strict Implicit. Unset Printing Implicit Defensive.
Import Order.Theory GRing.Theory Num.Theory.
Local Open Scope ring_scope.

Section FunsProps.
Variable R : rcfType.
Notation xnum := (xnum R).
Notation nd := (nd R).
Variables (D KW : Type).
Variable pdf : D -> KW -> nd -> res (pdfval xnum).
Variable logpdf : D -> nd -> res (pdfval xnum).
Variable nokw : KW.
Variable normal : seq R -> R -> D.
Variable trunc : R -> R.
Variable G : Type.
Variable randn : nat -> G -> seq R * G.
Hypothesis size_randn : forall n g, size (randn n g).1 = n.
Notation mud_problem := (mud_problem D trunc randn).
Notation map_problem := (map_problem pdf logpdf nokw normal trunc randn).
Implicit Types (lam qoi a : nd) (truth : seq R) (sd : R) (g : G).

(** ** Specification *)
(** The number m of observations in use: all w of them by default, otherwise num_obs, which
    must be between 1 and w. *)
Definition uses (w : nat) (num_obs : option int) (m : nat) : Prop :=
  (num_obs = None /\ m = w) \/ (num_obs = Some (Posz m) /\ (0 < m <= w)%N).

(** Observation j with its noise. *)
Definition noisy truth sd g m j : R := nth 0 truth j + nth 0 (randn m g).1 j * sd.

(** The weighted mean error of sample i over the observations js. *)
Definition err qoi truth sd g m (js : seq nat) i : R :=
  \sum_(j <- js) (ent (col2 qoi) i j - noisy truth sd g m j) / (sd * Num.sqrt (size js)%:R).

Lemma sum_iota m (F : nat -> R) : \sum_(j <- iota 0 m) F j = \sum_(j < m) F j.
Proof. by rewrite -(big_mkord xpredT F) /index_iota subn0. Qed.

(** ** wme on arrays given by their rows *)
Lemma wme_rows (rs : seq (seq R)) (dat : seq R) sd : all (fun r => size r == size dat) rs ->
  wme (nd2 (size dat) rs) (nd1 dat) (Some sd) =
  Ok [seq \sum_(j < size dat) (nth 0 r j - nth 0 dat j) / (sd * Num.sqrt (size dat)%:R) | r <- rs].
Proof.
move=> al; set N := size dat; set n := size rs.
pose P : 'M[R]_(n, N) := \matrix_(i, j) nth 0 (nth [::] rs i) j.
pose c : 'cV[R]_N := \col_j nth 0 dat j.
have hP : holds2 (nd2 N rs) P.
  split=> // i j; rewrite mxE.
  have := @nth_rows R (nd2 N rs) 0 i j (ltn_ord i) (ltn_ord j).
  by rewrite rows_nd2 // => ->.
have hc : holds1 (nd1 dat) c by split=> // b; rewrite mxE.
have sh : Nd.shape (nd1 dat) = [:: N] by [].
rewrite (@C29_formula R n N P c sd _ _ hP sh hc); congr Ok.
apply: (@eq_from_nth _ 0); first by rewrite size_map size_enum_ord size_map.
move=> i; rewrite size_map size_enum_ord => hi.
rewrite (nth_map (Ordinal hi)) ?size_enum_ord // (nth_map [::]) //.
have -> : nth (Ordinal hi) (enum 'I_n) i = Ordinal hi by apply/val_inj; rewrite /= nth_enum_ord.
by apply: eq_bigr => j _; rewrite !mxE.
Qed.

Lemma obs_countE w k m : uses w k m -> obs_count w k = Ok m.
Proof.
case=> [[-> ->] //|[-> /andP[m0 mw]]]; rewrite /obs_count ltz_nat ltnNge mw /=.
by rewrite ltz_nat ltnNge m0.
Qed.
Lemma obs_count_bad w (k : int) : (k < 1) || (Posz w < k) -> obs_count w (Some k) = Err ValueError.
Proof. by rewrite /obs_count; case: ifP => //= _ ->. Qed.

Lemma col2_shape (a : nd) : arr_ok 2 a -> nd_wf (col2 a) /\ Nd.shape (col2 a) = [:: dim (col2 a) 0; dim (col2 a) 1].
Proof.
move=> /col2_wf /andP[wf /eqP h]; split=> //; move: h; rewrite /ndim /dim.
by case: (Nd.shape (col2 a)) => [|x [|y [|z l]]].
Qed.

Lemma width2E (a : nd) : arr_ok 2 a -> width2 (col2 a) = Ok (dim (col2 a) 1).
Proof. by move=> /col2_shape [_ h]; rewrite /width2 /ndim h. Qed.

Lemma headE lam qoi k : arr_ok 2 lam -> arr_ok 2 qoi ->
  (lam <- as_col lam ;; qoi <- as_col qoi ;; w <- width2 qoi ;; m <- obs_count w k ;; Ok (lam, qoi, m)) =
  (m <- obs_count (dim (col2 qoi) 1) k ;; Ok (col2 lam, col2 qoi, m)).
Proof.
move=> al aq; rewrite /as_col !lam_col2; try by [case/andP: al|case/andP: aq].
by cbn [rbind]; rewrite width2E.
Qed.

(** ** C65: num_obs *)
(** C65: a num_obs below 1 or above the number of QoI columns raises ValueError, before any
    random number is drawn. *)
Theorem C65_rejects lam qoi truth xint dom domint sd (k : int) sp wt lg g :
  arr_ok 2 lam -> arr_ok 2 qoi -> (k < 1) || (Posz (dim (col2 qoi) 1) < k) ->
  mud_problem lam qoi truth xint dom domint sd (Some k) sp wt g = (g, Err ValueError) /\
  map_problem lam qoi truth xint dom sd (Some k) lg g = (g, Err ValueError).
Proof.
by move=> al aq bad; rewrite /FunsModel.mud_problem /FunsModel.map_problem headE // obs_count_bad.
Qed.

Lemma first_colsE a n w m : nd_wf a -> Nd.shape a = [:: n; w] -> (m <= w)%N ->
  first_cols a m = nd2 m [seq [seq ent a i j | j <- iota 0 m] | i <- iota 0 n].
Proof.
move=> wf h mw; rewrite /first_cols {1}/dim h /= (minn_idPl mw); congr nd2.
rewrite (rows_of wf h) -map_comp; apply/eq_map => i /=.
rewrite /row_of -map_take; congr map; apply: (@eq_from_nth _ 0%N).
  by rewrite size_takel !size_iota.
move=> j; rewrite size_takel ?size_iota // => jm.
by rewrite nth_take // !nth_iota // (leq_trans jm).
Qed.

Lemma vadd_same u v : size u = size v ->
  vadd u v = Ok [seq nth 0 u j + nth 0 v j | j <- iota 0 (size u)] :> res (seq R).
Proof.
move=> e; rewrite /vadd e eqxx; congr Ok.
apply: (@eq_from_nth _ 0); first by rewrite !size_map size_zip e minnn size_iota.
move=> i; rewrite size_map size_zip e minnn => hi.
by rewrite (nth_map (0, 0)) ?size_zip ?e ?minnn // nth_zip // (nth_map 0%N) ?size_iota // nth_iota.
Qed.

Lemma noisyE truth sd g m : (m <= size truth)%N ->
  vadd (take m truth) [seq x * sd | x <- (randn m g).1] = Ok [seq noisy truth sd g m j | j <- iota 0 m].
Proof.
move=> sz; have e : size (take m truth) = m by rewrite size_takel.
rewrite vadd_same ?e ?size_map ?size_randn //; congr Ok; apply/eq_in_map => j.
rewrite mem_iota add0n => /andP[_ hj]; rewrite nth_take //; congr (_ + _).
by rewrite (nth_map 0) // size_randn.
Qed.

(** C65: with m observations in use, the result is DensityProblem(lam, q, domain, weights) where
    q holds, for each sample, the weighted mean error over the first m columns; one call of
    the generator for m draws. *)
Theorem C65_mud_problem lam qoi truth xint dom domint sd k m wt g n w :
  arr_ok 2 lam -> arr_ok 2 qoi -> Nd.shape (col2 qoi) = [:: n; w] -> uses w k m -> (m <= size truth)%N ->
  mud_problem lam qoi truth xint dom domint sd k None wt g =
  ((randn m g).2,
   density_init D trunc (col2 lam) (Nd [:: n; 1%N] [seq err qoi truth sd g m (iota 0 m) i | i <- iota 0 n])
     xint dom domint wt false (10%:R^-1)).
Proof.
move=> al aq hq us mt; have [wq _] := col2_shape aq.
have mw : (m <= w)%N by case: us => [[_ ->]|[_ /andP[]]].
rewrite /FunsModel.mud_problem headE // {1}/dim hq /= (obs_countE us) /=.
case eg: (randn m g) => [z g'] /=; congr (_, _).
have ez : z = (randn m g).1 by rewrite eg.
rewrite /qoi_all ez noisyE //; cbn [rbind].
rewrite (first_colsE wq hq mw).
set dat := [seq noisy _ _ _ _ j | j <- _].
have sd_ : size dat = m by rewrite size_map size_iota.
rewrite -{1}sd_ wme_rows; last by rewrite all_map; apply/allP => i _; rewrite /= size_map sd_ size_iota.
cbn [rbind]; rewrite sd_ -map_comp.
set v := map _ _.
have vE : v = [seq err qoi truth sd g m (iota 0 m) i | i <- iota 0 n].
  apply/eq_map => i /=; rewrite /err size_iota.
  rewrite [RHS]sum_iota; apply: eq_bigr => j _.
  by rewrite (nth_map 0%N) ?size_iota // /dat (nth_map 0%N) ?size_iota // !nth_iota ?add0n.
have sv : size v = n by rewrite vE size_map size_iota.
by rewrite -vE /np_reshape /wild /known /fill /prodn /= dvd1n divn1 sv.
Qed.

(** C98: map_problem: BayesProblem(lam, first m columns, domain) whose likelihood has been set
    to the normal distribution around the m noisy observations with scale sd. *)
Theorem C98_map_problem lam qoi truth xint dom sd k m lg g n w :
  arr_ok 2 lam -> arr_ok 2 qoi -> Nd.shape (col2 qoi) = [:: n; w] -> uses w k m -> (m <= size truth)%N ->
  map_problem lam qoi truth xint dom sd k lg g =
  ((randn m g).2,
   b <- bayes_init D trunc (col2 lam)
          (nd2 m [seq [seq ent (col2 qoi) i j | j <- iota 0 m] | i <- iota 0 n]) xint dom ;;
   let br := set_likelihood (fun d => pdf d nokw) logpdf b (normal [seq noisy truth sd g m j | j <- iota 0 m] sd) lg in
   if br.2 is Err e then Err e else Ok br.1).
Proof.
move=> al aq hq us mt; have [wq _] := col2_shape aq.
have mw : (m <= w)%N by case: us => [[_ ->]|[_ /andP[]]].
rewrite /FunsModel.map_problem headE // {1}/dim hq /= (obs_countE us) /=.
case eg: (randn m g) => [z g'] /=; congr (_, _).
have -> : z = (randn m g).1 by rewrite eg.
rewrite noisyE //; cbn [rbind]; rewrite (first_colsE wq hq mw).
case: (bayes_init _ _ _ _ _ _) => [b|e] //; cbn [rbind].
by case: (set_likelihood _ _ _ _ _) => b' [u|e].
Qed.

(** ** C65: what the result depends on *)
(** The two QoI arrays have as many samples and agree on the first m columns. *)
Definition agree_cols (m : nat) (a a' : nd) : Prop :=
  dim (col2 a) 0 = dim (col2 a') 0 /\
  forall i j, (i < dim (col2 a) 0)%N -> (j < m)%N -> ent (col2 a) i j = ent (col2 a') i j.

Lemma agree_first_cols m a a' : arr_ok 2 a -> arr_ok 2 a' -> agree_cols m a a' ->
  (m <= dim (col2 a) 1)%N -> (m <= dim (col2 a') 1)%N -> first_cols (col2 a) m = first_cols (col2 a') m.
Proof.
move=> oa oa' [e ag] h h'; have [wa sa] := col2_shape oa; have [wa' sa'] := col2_shape oa'.
rewrite (first_colsE wa sa h) (first_colsE wa' sa' h') -e; congr nd2.
apply/eq_in_map => i; rewrite mem_iota add0n => /andP[_ hi].
by apply/eq_in_map => j; rewrite mem_iota add0n => /andP[_ hj]; apply: ag.
Qed.

Lemma uses_le w k m : uses w k m -> (m <= w)%N.
Proof. by case=> [[_ ->]|[_ /andP[]]]. Qed.

Definition nats (c : seq nat) : seq int := [seq Posz j | j <- c].

Lemma filter_nats m c : filter (fun i : int => i < Posz m) (nats c) = nats (filter (fun j => (j < m)%N) c).
Proof. by rewrite /nats filter_map; congr map; apply: eq_filter => j; rewrite /= ltz_nat. Qed.

Lemma py_nats n c : all (fun j => (j < n)%N) c -> rmapM (py_index n) (nats c) = Ok c.
Proof. by elim: c => [//|j c ih] /= /andP[h1 h2]; rewrite h1 ih. Qed.

Lemma agree_cols_at m a a' c : arr_ok 2 a -> arr_ok 2 a' -> agree_cols m a a' ->
  (m <= dim (col2 a) 1)%N -> (m <= dim (col2 a') 1)%N -> all (fun j => (j < m)%N) c ->
  cols_at (col2 a) (nats c) = cols_at (col2 a') (nats c).
Proof.
move=> oa oa' [e ag] h h' ac; have [wa sa] := col2_shape oa; have [wa' sa'] := col2_shape oa'.
rewrite /cols_at !py_nats; last 2 first.
- by apply: sub_all ac => j hj; apply: leq_trans hj h'.
- by apply: sub_all ac => j hj; apply: leq_trans hj h.
cbn [rbind]; congr (Ok (nd2 _ _)); rewrite (rows_of wa sa) (rows_of wa' sa') -e -!map_comp.
apply/eq_in_map => i; rewrite mem_iota add0n => /andP[_ hi] /=.
apply/eq_in_map => j /(allP ac) hj.
rewrite (nth_map 0%N) ?size_iota ?(leq_trans hj) // nth_iota ?(leq_trans hj) //.
rewrite (nth_map 0%N) ?size_iota ?(leq_trans hj) // nth_iota ?(leq_trans hj) //.
by apply: ag.
Qed.

Lemma at_ints_take m (t t' : seq R) c : take m t = take m t' -> all (fun j => (j < m)%N) c ->
  at_ints t (nats c) = at_ints t' (nats c).
Proof.
move=> e ac; rewrite /at_ints.
have L (s : seq R) j : (j < m)%N -> py_index (size s) (Posz j) = py_index (size (take m s)) (Posz j).
  by move=> hj; rewrite /py_index size_take; case: (ltnP m (size s)) => // h; rewrite hj (ltn_trans hj h).
have -> : rmapM (py_index (size t)) (nats c) = rmapM (py_index (size t')) (nats c).
  elim: c ac => [//|j c ih] /= /andP[hj ac]; rewrite ih //.
  by have := L t j hj; have := L t' j hj; rewrite -e /py_index => <- ->.
case er: (rmapM _ _) => [js|//]; cbn [rbind]; congr Ok; apply/eq_in_map => j hj.
have jm : (j < m)%N.
  elim: c ac js er hj => [|k c ih] /= ac js; first by case=> <-.
  move: ac => /andP[hk ac]; case: ifP => // _; cbn [rbind].
  case er: (rmapM _ _) => [l|//]; cbn [rbind] => -[<-]; rewrite inE => /orP[/eqP -> //|].
  by apply: ih er.
by rewrite -(nth_take _ jm) e nth_take.
Qed.

(** C65, non-interference: two calls whose qoi agree on the first m columns and whose qoi_true
    agree on the first m entries, m being the number of observations in use, return the same
    result (problem or exception) and leave the generator in the same state.  The entries of
    split must not be negative. *)
Theorem C65_only_first_columns lam qoi qoi' truth truth' xint dom domint sd k k' m sp wt lg g :
  arr_ok 2 lam -> arr_ok 2 qoi -> arr_ok 2 qoi' ->
  uses (dim (col2 qoi) 1) k m -> uses (dim (col2 qoi') 1) k' m ->
  agree_cols m qoi qoi' -> take m truth = take m truth' ->
  mud_problem lam qoi truth xint dom domint sd k (omap (map nats) sp) wt g =
  mud_problem lam qoi' truth' xint dom domint sd k' (omap (map nats) sp) wt g /\
  map_problem lam qoi truth xint dom sd k lg g = map_problem lam qoi' truth' xint dom sd k' lg g.
Proof.
move=> al aq aq' us us' ag et.
have h := uses_le us; have h' := uses_le us'; have [wq sq] := col2_shape aq; have [wq' sq'] := col2_shape aq'.
have fc := agree_first_cols aq aq' ag h h'.
rewrite /FunsModel.mud_problem /FunsModel.map_problem !headE //.
rewrite (obs_countE us) (obs_countE us') /=; case: (randn m g) => z g' /=.
rewrite -fc -et; split=> //; congr (_, _).
case: sp => [sp|] /=; last by rewrite /qoi_all -fc -et.
congr rbind; rewrite /qoi_split; have [-> _] := ag; congr rbind.
elim: sp => [//|c sp ih] /=; rewrite ih; congr rbind.
rewrite filter_nats; set js := filter _ c.
have aj : all (fun j => (j < m)%N) js by apply: filter_all.
by rewrite (agree_cols_at aq aq' ag h h' aj) (at_ints_take et aj).
Qed.

(** C65: qoi_true with fewer than m entries: ValueError, unless it has one entry, which then
    stands for all of them. *)
Theorem C65_short_truth lam qoi truth xint dom domint sd k m wt lg g :
  arr_ok 2 lam -> arr_ok 2 qoi -> uses (dim (col2 qoi) 1) k m ->
  (size truth < m)%N -> size truth <> 1%N -> m <> 1%N ->
  mud_problem lam qoi truth xint dom domint sd k None wt g = ((randn m g).2, Err ValueError) /\
  map_problem lam qoi truth xint dom sd k lg g = ((randn m g).2, Err ValueError).
Proof.
move=> al aq us st s1 m1; rewrite /FunsModel.mud_problem /FunsModel.map_problem !headE // (obs_countE us) /=.
have sz := size_randn m g; case: (randn m g) sz => z g' /= sz.
rewrite /qoi_all /vadd !size_map sz take_oversize ?(ltnW st) //.
move/eqP/negbTE: s1 => ->; move/eqP/negbTE: m1 => ->.
by rewrite (ltn_eqF st).
Qed.

Theorem C65_one_truth lam qoi x xint dom domint sd k m wt lg g :
  arr_ok 2 lam -> arr_ok 2 qoi -> uses (dim (col2 qoi) 1) k m -> (0 < m)%N ->
  mud_problem lam qoi [:: x] xint dom domint sd k None wt g =
  mud_problem lam qoi (nseq m x) xint dom domint sd k None wt g /\
  map_problem lam qoi [:: x] xint dom sd k lg g = map_problem lam qoi (nseq m x) xint dom sd k lg g.
Proof.
move=> al aq us m0; rewrite /FunsModel.mud_problem /FunsModel.map_problem !headE // (obs_countE us) /=.
have sz := size_randn m g; case: (randn m g) sz => z g' /= sz.
have E : vadd (take m [:: x]) [seq y * sd | y <- z] = vadd (take m (nseq m x)) [seq y * sd | y <- z].
  rewrite take_oversize // take_oversize ?size_nseq // [RHS]vadd_same ?size_nseq ?size_map //.
  rewrite /vadd size_map sz; case: eqP => e1.
    by rewrite -e1; case: z sz => [|y [|? ?]]; rewrite -e1.
  congr Ok; apply: (@eq_from_nth _ 0); rewrite ?size_map ?size_iota //.
  move=> i hi; rewrite [LHS](nth_map 0) ?size_map // [RHS](nth_map 0%N) ?size_iota -?sz //.
  by rewrite nth_iota // nth_nseq hi.
by rewrite /qoi_all E.
Qed.

(** ** C96: split *)
(** C96: with split, QoI number c is the weighted mean error over those of the observations
    listed in split[c] that are among the first m (a list without any gives the value 0);
    an empty split raises ValueError. *)
Theorem C96_split lam qoi truth xint dom domint sd k m cs wt g n w :
  arr_ok 2 lam -> arr_ok 2 qoi -> Nd.shape (col2 qoi) = [:: n; w] -> uses w k m -> (m <= size truth)%N ->
  mud_problem lam qoi truth xint dom domint sd k (Some [seq nats c | c <- cs]) wt g =
  ((randn m g).2,
   if size cs == 0%N then Err ValueError else
   density_init D trunc (col2 lam)
     (nd2 (size cs) [seq [seq err qoi truth sd g m (filter (fun j => (j < m)%N) c) i | c <- cs] | i <- iota 0 n])
     xint dom domint wt false (10%:R^-1)).
Proof.
move=> al aq hq us mt; have [wq _] := col2_shape aq; have mw := uses_le us.
rewrite /FunsModel.mud_problem headE // {1}/dim hq /= (obs_countE us) /=.
case eg: (randn m g) => [z g'] /=; congr (_, _).
have ez : z = (randn m g).1 by rewrite eg.
have sz : size z = m by rewrite ez size_randn.
rewrite /qoi_split.
have E : rmapM (fun idx : seq int =>
           let js := filter (fun i : int => i < Posz m) idx in
           sub <- cols_at (col2 qoi) js ;; a <- at_ints truth js ;; b <- at_ints [seq x * sd | x <- z] js ;;
           dat <- vadd a b ;; wme sub (nd1 dat) (Some sd)) [seq nats c | c <- cs] =
         Ok [seq [seq err qoi truth sd g m (filter (fun j => (j < m)%N) c) i | i <- iota 0 n] | c <- cs].
  elim: cs => [//|c cs ih]; rewrite map_cons /rmapM -/rmapM ih /= filter_nats.
  set js := filter _ c; have aj : all (fun j => (j < m)%N) js by apply: filter_all.
  have aw : all (fun j => (j < w)%N) js by apply: sub_all aj => j hj; apply: leq_trans hj mw.
  rewrite /cols_at {1}/dim hq /= py_nats //; cbn [rbind].
  rewrite /at_ints py_nats; last by apply: sub_all aj => j hj; apply: leq_trans hj mt.
  rewrite size_map sz py_nats //; cbn [rbind].
  rewrite vadd_same ?size_map //; cbn [rbind].
  set dat := [seq _ + _ | _ <- iota _ _]; have sdat : size dat = size js by rewrite size_map size_iota.
  rewrite -{1}sdat wme_rows; last by rewrite all_map; apply/allP => r _; rewrite /= size_map sdat.
  cbn [rbind]; congr (Ok (_ :: _)); rewrite (rows_of wq hq) -!map_comp.
  apply/eq_in_map => i; rewrite mem_iota add0n => /andP[_ hi] /=.
  rewrite /err sdat [RHS](big_nth 0%N) big_mkord; apply: eq_bigr => j _.
  have jw : (nth 0%N js j < w)%N by apply: (allP aw); apply: mem_nth.
  have jm : (nth 0%N js j < m)%N by apply: (allP aj); apply: mem_nth.
  rewrite (nth_map 0%N) // (nth_map 0%N) ?size_iota // nth_iota // add0n.
  congr ((_ - _) / _); rewrite (nth_map 0%N) ?size_iota // nth_iota // add0n.
  rewrite (nth_map 0%N) // (nth_map 0%N) // /noisy; congr (_ + _).
  by rewrite (nth_map 0) ?sz // ez.
rewrite E; cbn [rbind]; case: cs E => [//|c cs] _; rewrite /stack_cols.
set q := map _ (c :: cs); have -> : (if q is [::] then Err ValueError else Ok (nd2 (size q)
    [seq [seq nth 0 c0 i | c0 <- q] | i <- iota 0 (dim (col2 qoi) 0)])) =
  Ok (nd2 (size q) [seq [seq nth 0 c0 i | c0 <- q] | i <- iota 0 (dim (col2 qoi) 0)]) by [].
cbn [rbind]; rewrite [size _ == _]/= /q size_map {1}/dim hq [nth _ _ _]/=.
congr density_init; congr nd2.
apply/eq_in_map => i; rewrite mem_iota add0n => /andP[_ hi].
rewrite -!map_comp /= (nth_map 0%N) ?size_iota // nth_iota // add0n; congr (_ :: _).
by apply/eq_map => c' /=; rewrite (nth_map 0%N) ?size_iota // nth_iota // add0n.
Qed.
End FunsProps.
