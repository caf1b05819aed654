(** SpatioTemporalProblem: sub-sampling (C59) and the closest sample (C60). *)
Set Warnings "-notation-overridden,-ambiguous-paths".
From mathcomp Require Import all_ssreflect all_algebra.
From Coq Require Import String.
From Verif Require Import Py Nd Xnum XnumProofs UtilModel DensityModel NdProofs UtilModel2 UtilProps
  StModel StProps StProps2.
Set Implicit Arguments. Unset Strict Implicit. Unset Printing Implicit Defensive.
Import Order.Theory GRing.Theory Num.Theory.
Local Open Scope ring_scope.

(** The positions an optional mask selects from n entries: all of them without a mask. *)
Definition picked (n : nat) (m : option mask) : res (seq nat) :=
  if m is Some m then resolve n m else Ok (iota 0 n).

(** Independent reading of a mask: integers count from the front or (negative) from the end
    and must be in range; booleans must be as many as entries and keep those marked; slices
    clip. *)
Definition wraps (n : nat) (i : int) : option nat :=
  match i with Posz k => if (k < n)%N then Some k else None
             | Negz k => if (k < n)%N then Some (n - k.+1)%N else None end.

Section Masks.
Variable n : nat.

Lemma resolve_ints l : resolve n (MInts l) =
  if all (fun i => isSome (wraps n i)) l then Ok (pmap (wraps n) l) else Err IndexError.
Proof.
rewrite /resolve; elim: l => [//|i l /= ->].
by case: i => k; rewrite /py_index /wraps /=; case: ifP => //= _; case: ifP.
Qed.

Lemma resolve_bools_in l I i : resolve n (MBools l) = Ok I ->
  (i \in I) = ((i < n)%N && nth false l i).
Proof.
rewrite /resolve; case: eqP => // e [<-]; rewrite mem_filter mem_iota /= add0n.
by rewrite andbC.
Qed.

Lemma resolve_slice a b : resolve n (MSlice a b) = 
  Ok (iota (slice_bound n 0 a) (slice_bound n n b - slice_bound n 0 a)).
Proof. by []. Qed.

Lemma slice_bound_le d b : (d <= n)%N -> (slice_bound n d b <= n)%N.
Proof. by case: b => [[k|k]|] //= _; rewrite ?geq_minr ?leq_subr. Qed.

Lemma picked_lt m I : picked n m = Ok I -> all (fun i => (i < n)%N) I.
Proof.
case: m => [m|[<-]]; last by apply/allP => i; rewrite mem_iota.
case: m => [l|l|a b]; rewrite /picked.
- rewrite resolve_ints; case: ifP => // _ [<-]; apply/allP => i; rewrite mem_pmap => /mapP [k _].
  case: k => k; rewrite /wraps; case: ifP => // h [->] //.
  by rewrite ltn_subrL (leq_ltn_trans _ h).
- by move=> e; apply/allP => i; rewrite (resolve_bools_in _ e) => /andP [].
- rewrite resolve_slice => -[<-]; apply/allP => i; rewrite mem_iota => /andP [_].
  have := slice_bound_le b (leqnn n); case: (leqP (slice_bound n 0 a) (slice_bound n n b)) => h.
    by rewrite subnKC // => h1 h2; apply: leq_trans h2 h1.
  by move=> h1; move/ltnW: (h); rewrite -subn_eq0 => /eqP ->; rewrite addn0 => h2;
    apply: leq_trans h2 (slice_bound_le a (leq0n n)).
Qed.

Lemma picked_err m e : picked n m = Err e -> e = IndexError.
Proof.
case: m => [[l|l|a b]|] //; rewrite /picked; first by rewrite resolve_ints; case: ifP => // _ [].
by rewrite /resolve; case: ifP => // _ [].
Qed.
End Masks.

Section Seqs.
Variable V : Type.
Variable x0 : V.
Lemma pick_all y0 (idx : option (seq nat)) (s : seq V) n : size s = n ->
  pick y0 idx s = [seq nth y0 s i | i <- odflt (iota 0 n) idx].
Proof. by move=> <-; case: idx => [l|] //=; rewrite -[LHS](mkseq_nth y0). Qed.

(** Entry a * t + b of the concatenation of blocks of length t. *)
Lemma nth_flatten_blocks (f : nat -> nat -> V) (X T : seq nat) a b :
  (a < size X)%N -> (b < size T)%N ->
  nth x0 (flatten [seq [seq f x j | j <- T] | x <- X]) (a * size T + b) =
  f (nth 0%N X a) (nth 0%N T b).
Proof.
move=> ha hb; rewrite -(@nth_reshape_nseq _ (size X) (size T)) //.
have -> : size X = size [seq [seq f x j | j <- T] | x <- X] by rewrite size_map.
rewrite rows_flatten; last by rewrite all_map; apply/allP => x _; rewrite /= size_map.
by rewrite (nth_map 0%N) // (nth_map 0%N).
Qed.
Lemma size_flatten_blocks (f : nat -> nat -> V) (X T : seq nat) :
  size (flatten [seq [seq f x j | j <- T] | x <- X]) = (size X * size T)%N.
Proof.
elim: X => [//|x X ih] /=; by rewrite size_cat size_map ih mulSn.
Qed.
End Seqs.

Section StProps3.
Variable R : rcfType.
Notation nd := (nd R).
Notation st := (st R).
Implicit Types (s : st) (a d lam : nd).

(** A problem set up with n samples of p parameters, data with k * t columns, k sensors,
    t times and (if set) k * t measurements. *)
Definition setup s (n p k t : nat) d lam se ti : Prop :=
  [/\ s_data s = Some d /\ s_lam s = Some lam,
      s_sens s = Some se /\ s_times s = Some ti,
      (nd_wf d /\ Nd.shape d = [:: n; (k * t)%N]) /\ (nd_wf lam /\ Nd.shape lam = [:: n; p]),
      (nd_wf se /\ (0 < ndim se)%N /\ dim se 0 = k) /\
      (nd_wf ti /\ (Nd.shape ti = [:: t] \/ Nd.shape ti = [:: t; 1%N])) &
      match s_meas s with None => True | Some (NArr m) => size (data m) = (k * t)%N
                        | Some NObj => False end].

(** The measured value for sensor x and time j. *)
Definition meas_at s (t x j : nat) : R :=
  if s_meas s is Some (NArr m) then nth 0 (data m) (x * t + j) else 0.

Lemma nth_cube n k t (v : seq R) i x j : size v = (n * k * t)%N ->
  (i < n)%N -> (x < k)%N -> (j < t)%N ->
  nth 0 (nth [::] (nth [::] (cube n k t v) i) x) j = nth 0 v (i * (k * t) + (x * t + j)).
Proof.
move=> sz hi hx hj; rewrite /cube (nth_map [::]); last first.
  by rewrite -[reshape _ _]/(rows (Nd [:: n; (k * t)%N] v)) size_rows.
rewrite nth_reshape_nseq // nth_reshape_nseq //.
have : (x.+1 * t <= k * t)%N by rewrite leq_mul2r hx orbT.
by rewrite mulSn; apply: leq_trans; rewrite addnC ltn_add2r.
Qed.

Lemma size_cube n k t (v : seq R) : size (cube n k t v) = n.
Proof. by rewrite /cube size_map -[reshape _ _]/(rows (Nd [:: n; (k * t)%N] v)) size_rows. Qed.

Lemma cubeE n k t (v : seq R) si xi ti I X T : size v = (n * k * t)%N ->
  odflt (iota 0 n) si = I -> odflt (iota 0 k) xi = X -> odflt (iota 0 t) ti = T ->
  all (fun i => (i < n)%N) I -> all (fun i => (i < k)%N) X -> all (fun i => (i < t)%N) T ->
  [seq [seq pick 0 ti r | r <- pick [::] xi b] | b <- pick [::] si (cube n k t v)] =
  [seq [seq [seq nth 0 v (i * (k * t) + (x * t + j)) | j <- T] | x <- X] | i <- I].
Proof.
move=> sz eI eX eT aI aX aT.
rewrite (pick_all _ _ (size_cube n k t v)) eI -map_comp.
apply/eq_in_map => i /(allP aI) hi /=.
have szb : size (nth [::] (cube n k t v) i) = k.
  rewrite /cube (nth_map [::]); last first.
    by rewrite -[reshape _ _]/(rows (Nd [:: n; (k * t)%N] v)) size_rows.
  by rewrite -[reshape _ _]/(rows (Nd [:: k; t] (nth [::] (reshape (nseq n (k * t)%N) v) i))) size_rows.
rewrite (pick_all _ _ szb) eX -map_comp.
apply/eq_in_map => x /(allP aX) hx /=.
have szr : size (nth [::] (nth [::] (cube n k t v) i) x) = t.
  rewrite /cube (nth_map [::]); last first.
    by rewrite -[reshape _ _]/(rows (Nd [:: n; (k * t)%N] v)) size_rows.
  by rewrite size_row // size_row // sz mulnA.
rewrite (pick_all _ _ szr) eT; apply/eq_in_map => j /(allP aT) hj.
exact: nth_cube.
Qed.

Lemma measE k t (v : seq R) xi ti X T : size v = (k * t)%N ->
  odflt (iota 0 k) xi = X -> odflt (iota 0 t) ti = T ->
  all (fun i => (i < k)%N) X -> all (fun i => (i < t)%N) T ->
  flatten [seq pick 0 ti r | r <- pick [::] xi (reshape (nseq k t) v)] =
  flatten [seq [seq nth 0 v (x * t + j) | j <- T] | x <- X].
Proof.
move=> sz eX eT aX aT; congr flatten.
have szb : size (reshape (nseq k t) v) = k by rewrite -[reshape _ _]/(rows (Nd [:: k; t] v)) size_rows.
rewrite (pick_all _ _ szb) eX -map_comp.
apply/eq_in_map => x /(allP aX) hx /=.
rewrite (pick_all _ _ (size_row sz hx)) eT; apply/eq_in_map => j /(allP aT) hj.
exact: nth_reshape_nseq.
Qed.

Lemma take0_2d a n p I : nd_wf a -> Nd.shape a = [:: n; p] -> all (fun i => (i < n)%N) I ->
  Nd.shape (take0 a I) = [:: size I; p] /\
  (nd_wf (take0 a I) /\
  forall i j, (i < size I)%N -> (j < p)%N -> ent (take0 a I) i j = ent a (nth 0%N I i) j).
Proof.
case: a => sh v /eqP wf /= e aI; subst sh; have sz : size v = (n * p)%N.
  by rewrite /prodn /= muln1 in wf.
have E : take0 (Nd [:: n; p] v) I = nd2 p [seq [seq nth 0 v (i * p + j) | j <- iota 0 p] | i <- I].
  rewrite /take0 /nd2 /prodn /= muln1 size_map; congr Nd; congr flatten.
  apply/eq_in_map => i /(allP aI) hi.
  have sz2 : size (take p (drop (i * p) v)) = p.
    rewrite size_takel // size_drop sz -mulnBl leq_pmull // subn_gt0 //.
  rewrite -[LHS](mkseq_nth 0) sz2 /mkseq; apply/eq_in_map => j; rewrite mem_iota => /= hj.
  by rewrite nth_take // nth_drop.
rewrite E /ent rows_nd2; last by apply/allP => r /mapP [i _ ->]; rewrite size_map size_iota.
rewrite /nd2 /=; split; first by [].
split; first by rewrite /nd_wf /= size_flatten_blocks size_iota size_map /prodn /= muln1.
move=> i j hi hj; rewrite (nth_map 0%N) // (nth_map 0%N) ?size_iota // nth_iota // add0n.
by rewrite nth_rows // /dim /= ?(allP aI) // mem_nth.
Qed.

Lemma take0_1d a t I : nd_wf a -> (Nd.shape a = [:: t] \/ Nd.shape a = [:: t; 1%N]) ->
  all (fun i => (i < t)%N) I -> data (take0 a I) = [seq nth 0 (data a) i | i <- I].
Proof.
case: a => sh v /eqP sz e aI; cbn [data Nd.shape] in sz, e.
have {}sz : size v = t by case: e => e; rewrite sz e /prodn /= ?muln1.
have -> : data (take0 (Nd sh v) I) = flatten [seq take 1 (drop i v) | i <- I].
  by rewrite /take0 /=; congr flatten; apply/eq_map => i; case: e => ->; rewrite /prodn /= !muln1.
elim: I aI => [//|i I ih] /= /andP [hi aI]; rewrite ih //.
by rewrite (drop_nth 0) ?sz //= seq.take0.
Qed.

Lemma reshape_w (w n : nat) (v : seq R) : (0 < w)%N -> size v = (n * w)%N ->
  np_reshape [:: None; Some w] (nd1 v) = Ok (Nd [:: n; w] v).
Proof.
move=> w0 sz; rewrite /np_reshape /wild /known /fill /prodn /= !muln1 w0 sz dvdn_mull //=.
by rewrite mulnK.
Qed.

(** The rows of picked data and the picked measurements. *)
Definition prow d (k t : nat) (X T : seq nat) (i : nat) : seq R :=
  flatten [seq [seq nth 0 (data d) (i * (k * t) + (x * t + j)) | j <- T] | x <- X].
Definition pmeas s (t : nat) (X T : seq nat) : option (seq R) :=
  if s_meas s is None then None
  else Some (flatten [seq [seq meas_at s t x j | j <- T] | x <- X]).

Lemma sample_dataE s n p k t d lam se ti sm tm xm :
  setup s n p k t d lam se ti ->
  match picked n sm, picked t tm, picked k xm with
  | Ok Is, Ok T, Ok X =>
      exists ti', (if tm is None then ti' = ti
         else ti' = Nd [:: size T; 1%N] [seq nth 0 (data ti) j | j <- T]) /\
      sample_data s sm tm xm =
      (sens' <- (if xm is Some _ then np_reshape [:: None; Some 2%N] (take0 se X) else Ok se) ;;
       d' <- np_reshape [:: None; Some (size T * dim sens' 0)%N]
               (nd1 (flatten [seq prow d k t X T i | i <- Is])) ;;
       meas' <- (if pmeas s t X T is Some m then
                   _ <- guard (size m == (size T * dim sens' 0)%N) ValueError ;; Ok (Some m)
                 else Ok None) ;;
       Ok (SD (if sm is Some _ then take0 lam Is else lam) ti' sens' d' meas'))
  | _, _, _ => sample_data s sm tm xm = Err IndexError
  end.
Proof.
case=> -[ed el] [es et] [[wd hd] [wl hl]] [[ws [ns ds]] [wt ht]] hm.
have dt : dim ti 0 = t by rewrite /dim; case: ht => ->.
have nt : (0 < ndim ti)%N by rewrite /ndim; case: ht => ->.
have sh b : (0 < ndim b)%N -> @shape0 R b = Ok (dim b 0) by move=> q; rewrite /shape0 eqn0Ngt q.
have szd : size (data d) = (n * k * t)%N by move/eqP: wd; rewrite hd /prodn /= muln1 mulnA.
rewrite /sample_data /n_samples /n_sensors /n_ts ed el es et.
cbn [of_opt rbind]; have nl : (0 < ndim lam)%N by rewrite /ndim hl.
rewrite (sh _ nl); cbn [rbind]; rewrite (sh _ ns); cbn [rbind]; rewrite (sh _ nt); cbn [rbind].
have -> : dim lam 0 = n by rewrite /dim hl.
rewrite dt ds szd /guard eqxx; cbn [rbind].
set M := (match s_meas s with Some _ => _ | None => _ end).
have [mm [eM sM vM]] : exists mm, [/\ M = Ok (omap (reshape (nseq k t)) mm),
    (s_meas s = None <-> mm = None) &
    forall v, mm = Some v -> size v = (k * t)%N /\
      forall x j, nth 0 v (x * t + j) = meas_at s t x j].
  rewrite /M /meas_at /guard; case: (s_meas s) hm => [[m|]|] // e.
    by exists (Some (data m)); rewrite e eqxx /=; split=> // v [<-].
  by exists None.
rewrite eM {M eM}; cbn [rbind].
have pk q (m : option mask) : (if m is Some m then rmap Some (resolve q m) else Ok None) =
    rmap (fun J => if m is Some _ then Some J else None) (picked q m).
  by case: m => [m|] //=; case: (resolve q m).
rewrite !pk; move: (@picked_lt n sm) (@picked_err n sm).
case eI: (picked n sm) => [Is|e] aI eI'; last by rewrite (eI' _ erefl).
have {}aI := aI _ erefl; cbn [rmap rbind].
move: (@picked_lt t tm) (@picked_err t tm).
case eT: (picked t tm) => [T|e] aT eT'; last by rewrite (eT' _ erefl).
have {}aT := aT _ erefl; cbn [rmap rbind].
set times' := (match (if tm is Some _ then Some T else None) with Some _ => _ | None => _ end).
have [ti' [et' dt' vt']] : exists ti', [/\ times' = Ok ti', dim ti' 0 = size T &
    if tm is None then ti' = ti
         else ti' = Nd [:: size T; 1%N] [seq nth 0 (data ti) j | j <- T]].
  rewrite /times'; case: (tm) eT => [m|] /= eT.
    exists (Nd [:: size T; 1%N] [seq nth 0 (data ti) j | j <- T]); split=> //.
    rewrite /np_reshape (take0_1d wt ht aT) size_map /wild /known /fill /prodn /= muln1 dvd1n.
    by rewrite divn1.
  by exists ti; case: eT => <-; rewrite size_iota.
rewrite {times'}et'; cbn [rbind].
move: (@picked_lt k xm) (@picked_err k xm).
case eX: (picked k xm) => [X|e] aX eX'; last by rewrite (eX' _ erefl).
have {}aX := aX _ erefl; cbn [rmap rbind].
exists ti'; split=> //.
have oI : odflt (iota 0 n) (if sm is Some _ then Some Is else None) = Is.
  by case: (sm) eI => //= -[].
have oT : odflt (iota 0 t) (if tm is Some _ then Some T else None) = T.
  by case: (tm) eT => //= -[].
have oX : odflt (iota 0 k) (if xm is Some _ then Some X else None) = X.
  by case: (xm) eX => //= -[].
rewrite (cubeE szd oI oX oT aI aX aT) -map_comp -[flatten (map _ Is)]/(flatten [seq prow d k t X T i | i <- Is]).
rewrite dt' /pmeas.
have -> : (if (if xm is Some _ then Some X else None) is Some i
           then np_reshape [:: None; Some 2%N] (take0 se i) else Ok se) =
          (if xm is Some _ then np_reshape [:: None; Some 2%N] (take0 se X) else Ok se).
  by case: (xm).
have -> : (if (if sm is Some _ then Some Is else None) is Some i then take0 lam i else lam) =
          (if sm is Some _ then take0 lam Is else lam) by case: (sm).
case: (if xm is Some _ then _ else _) => [sens'|e] //; cbn [rbind].
case: (np_reshape _ _) => [d'|e] //; cbn [rbind].
case: mm sM vM => [v|] sM vM; cbn [omap obind oapp].
  have [sv nv] := vM _ erefl; rewrite (measE sv oX oT aX aT).
  case: (s_meas s) sM nv => [m|] sM nv; last by have := sM.1 erefl.
  rewrite (_ : flatten _ = flatten [seq [seq meas_at s t x j | j <- T] | x <- X]) //.
  by congr flatten; apply/eq_map => x; apply/eq_map => j.
by rewrite (sM.2 erefl).
Qed.

(** C59, the whole behaviour of sample_data on a problem that is set up (with sensors given by
    two coordinates if they are masked): IndexError if a mask is not valid, ValueError if no
    sensor or no time is left, otherwise the samples, sensors and times picked and, for each
    picked sample, sensor and time, its data value and its measurement, time varying
    fastest. *)
Theorem C59_sample_data s n p k t d lam se ti sm tm xm :
  setup s n p k t d lam se ti -> (xm <> None -> Nd.shape se = [:: k; 2%N]) ->
  match picked n sm, picked t tm, picked k xm with
  | Ok Is, Ok T, Ok X =>
      if (size X * size T == 0)%N then sample_data s sm tm xm = Err ValueError else
      exists o, [/\ sample_data s sm tm xm = Ok o,
        (nd_wf (sd_lam o) /\ Nd.shape (sd_lam o) = [:: size Is; p]) /\
        (forall i j, (i < size Is)%N -> (j < p)%N -> ent (sd_lam o) i j = ent lam (nth 0%N Is i) j),
        (nd_wf (sd_data o) /\ Nd.shape (sd_data o) = [:: size Is; (size X * size T)%N]) /\
        (forall i x j, (i < size Is)%N -> (x < size X)%N -> (j < size T)%N ->
           ent (sd_data o) i (x * size T + j) =
           ent d (nth 0%N Is i) (nth 0%N X x * t + nth 0%N T j)),
        (s_meas s = None /\ sd_meas o = None) \/
        (exists2 m, sd_meas o = Some m & size m = (size X * size T)%N /\
         forall x j, (x < size X)%N -> (j < size T)%N ->
           nth 0 m (x * size T + j) = meas_at s t (nth 0%N X x) (nth 0%N T j)) &
        (if tm is None then sd_times o = ti
         else sd_times o = Nd [:: size T; 1%N] [seq nth 0 (data ti) j | j <- T]) /\
        (if xm is None then sd_sens o = se
         else Nd.shape (sd_sens o) = [:: size X; 2%N] /\
              forall x c, (x < size X)%N -> (c < 2)%N ->
                ent (sd_sens o) x c = ent se (nth 0%N X x) c)]
  | _, _, _ => sample_data s sm tm xm = Err IndexError
  end.
Proof.
move=> su sx; have := sample_dataE sm tm xm su.
case: su => -[ed el] [es et] [[wd hd] [wl hl]] [[ws [ns ds]] [wt ht]] hm.
case eI: (picked n sm) => [Is|e] //; case eT: (picked t tm) => [T|e] //.
case eX: (picked k xm) => [X|e] // [ti' [vt' ->]].
have aI := picked_lt eI; have aX := picked_lt eX; have aT := picked_lt eT.
set sens' := (if xm is Some _ then _ else Ok se).
have [se' [es' ds' vs']] : exists se', [/\ sens' = Ok se', dim se' 0 = size X &
    if xm is None then se' = se
         else Nd.shape se' = [:: size X; 2%N] /\
              forall x c, (x < size X)%N -> (c < 2)%N -> ent se' x c = ent se (nth 0%N X x) c].
  rewrite /sens'; case: (xm) eX sx => [m|] /= eX sx.
    have sx' : Nd.shape se = [:: k; 2%N] by apply: sx.
    have [h1 [h2 h3]] := take0_2d ws sx' aX.
    exists (take0 se X); rewrite reshape2_id /dom_wf ?h2 ?h1 /dim ?h1 ?eqxx //.
  by exists se; case: eX => <-; rewrite size_iota.
rewrite {sens'}es'; cbn [rbind]; rewrite ds'; set fr := prow d k t X T.
have sfr i : size (fr i) = (size X * size T)%N by rewrite /fr /prow size_flatten_blocks.
have srs : all (fun r => size r == (size X * size T)%N) [seq fr i | i <- Is].
  by rewrite all_map; apply/allP => i _; rewrite /= sfr.
have sfl : size (flatten [seq fr i | i <- Is]) = (size Is * (size X * size T))%N.
  by elim: (Is) => [//|i J ih] /=; rewrite size_cat ih sfr mulSn.
rewrite [(size T * _)%N]mulnC.
case: eqP => [e0|/eqP]; last rewrite -lt0n => w0.
  by rewrite /np_reshape /wild /known /fill /prodn /= e0.
rewrite (reshape_w w0 sfl); cbn [rbind].
set lam' := (if sm is Some _ then _ else lam).
have [hl1 hl2] : (nd_wf lam' /\ Nd.shape lam' = [:: size Is; p]) /\
    forall i j, (i < size Is)%N -> (j < p)%N -> ent lam' i j = ent lam (nth 0%N Is i) j.
  rewrite /lam'; case: (sm) eI => [m|] /= eI; first by have [? [? ?]] := take0_2d wl hl aI.
  case: eI => <-; rewrite size_iota; split=> // i j hi hj; by rewrite nth_iota.
set M := (if pmeas _ _ _ _ is Some _ then _ else _).
have [m' [eM' vM']] : exists m', M = Ok m' /\
   ((s_meas s = None /\ m' = None) \/
        (exists2 m, m' = Some m & size m = (size X * size T)%N /\
         forall x j, (x < size X)%N -> (j < size T)%N ->
           nth 0 m (x * size T + j) = meas_at s t (nth 0%N X x) (nth 0%N T j))).
  rewrite /M /pmeas; case: (s_meas s) => [m|]; last by exists None; split=> //; left.
  rewrite size_flatten_blocks /guard eqxx /=.
  eexists; split; first by []; right; eexists; first by [].
  rewrite size_flatten_blocks; split=> // x j hx hj.
  by rewrite nth_flatten_blocks.
rewrite {M}eM'; cbn [rbind]; eexists; split; first by [].
- by [].
- split; first by split=> //; rewrite /nd_wf /= sfl /prodn /= muln1.
  move=> i x j hi hx hj; cbn [sd_data].
  have -> : ent (Nd [:: size Is; (size X * size T)%N] (flatten [seq fr i | i <- Is])) i (x * size T + j) =
            nth 0 (nth [::] [seq fr i | i <- Is] i) (x * size T + j).
    rewrite /ent; congr (nth 0 (nth [::] _ i) _); rewrite /rows /dim /=.
    by have := rows_flatten srs; rewrite size_map.
  have hX : (nth 0%N X x < k)%N by apply: (allP aX); apply: mem_nth.
  have hT : (nth 0%N T j < t)%N by apply: (allP aT); apply: mem_nth.
  rewrite (nth_map 0%N) // /fr nth_flatten_blocks // /ent nth_rows /dim hd //=.
    by apply: (allP aI); apply: mem_nth.
  have : ((nth 0%N X x).+1 * t <= k * t)%N by rewrite leq_mul2r hX orbT.
  by rewrite mulSn; apply: leq_trans; rewrite addnC ltn_add2r.
- exact: vM'.
- by [].
Qed.

(** C59: without masks everything comes back, in order. *)
Corollary C59_without_masks s n p k t d lam se ti : setup s n p k t d lam se ti ->
  (0 < k * t)%N ->
  sample_data s None None None =
    Ok (SD lam ti se d (if s_meas s is Some (NArr m) then Some (data m) else None)).
Proof.
move=> su kt; have := sample_dataE None None None su; cbn [picked].
case: su => -[ed el] [es et] [[wd hd] [wl hl]] [[ws [ns ds]] [wt ht]] hm.
move=> [ti' [-> ->]]; cbn [rbind]; rewrite ds size_iota mulnC.
have blk (f : nat -> R) q w (v : seq R) : size v = (q * w)%N ->
    (forall i, (i < size v)%N -> f i = nth 0 v i) ->
    flatten [seq [seq f (i * w + j)%N | j <- iota 0 w] | i <- iota 0 q] = v.
  move=> sv fv; apply: (@eq_from_nth _ 0); first by rewrite size_flatten_blocks !size_iota.
  rewrite size_flatten_blocks !size_iota => i hi.
  have w0 : (0 < w)%N by case: (w) hi; rewrite ?muln0.
  rewrite [i in LHS](divn_eq i w).
  have hq : (i %/ w < q)%N by rewrite ltn_divLR.
  have hr : (i %% w < w)%N by rewrite ltn_mod.
  have := @nth_flatten_blocks _ 0 (fun i j => f (i * w + j)%N) (iota 0 q) (iota 0 w) (i %/ w) (i %% w).
  by rewrite !size_iota => -> //; rewrite !nth_iota // !add0n -divn_eq fv // sv.
have szd : size (data d) = (n * (k * t))%N by move/eqP: (wd); rewrite hd /prodn /= muln1.
have fl : flatten [seq prow d k t (iota 0 k) (iota 0 t) i | i <- iota 0 n] = data d.
  rewrite -[RHS](blk (nth 0 (data d)) n (k * t)%N) //; congr flatten; apply/eq_map => i.
  rewrite /prow; apply: (blk (fun q => nth 0 (data d) (i * (k * t) + q)%N)).
    by rewrite size_map size_iota.
  by move=> q; rewrite size_map size_iota => hq; rewrite (nth_map 0%N) ?size_iota // nth_iota.
rewrite fl (reshape_w kt szd); cbn [rbind].
have -> : Nd [:: n; (k * t)%N] (data d) = d by case: (d) hd => sh v /= ->.
rewrite /pmeas /meas_at; case: (s_meas s) hm => [[m|]|] //= hm.
by rewrite (blk (nth 0 (data m)) k t (data m)) // /guard hm eqxx.
Qed.

(** C59: errors on problems not set up. *)
Theorem C59_errors s sm tm xm :
  axis_ok (s_lam s) -> axis_ok (s_sens s) -> axis_ok (s_times s) ->
  [/\ [\/ s_data s = None, s_lam s = None, s_sens s = None | s_times s = None] ->
      sample_data s sm tm xm = Err AttributeError &
      forall d n k t, s_data s = Some d -> n_samples s = Ok n -> n_sensors s = Ok k -> n_ts s = Ok t ->
        size (data d) <> (n * k * t)%N -> sample_data s sm tm xm = Err ValueError].
Proof.
move=> al as_ at_; split=> [h|d n k t ed en ek et sz].
  have sh b : (0 < ndim b)%N -> @shape0 R b = Ok (dim b 0) by move=> q; rewrite /shape0 eqn0Ngt q.
  rewrite /sample_data /n_samples /n_sensors /n_ts.
  case: (s_data s) h => [d|] h //; cbn [of_opt rbind].
  case: (s_lam s) al h => [l|] al h //; cbn [of_opt rbind]; rewrite (sh _ al); cbn [rbind].
  case: (s_sens s) as_ h => [se|] as_ h //; cbn [of_opt rbind]; rewrite (sh _ as_); cbn [rbind].
  by case: (s_times s) at_ h => [ti|] at_ h //; case: h.
rewrite /sample_data en ek et ed; case el: (s_lam s) => [l|]; last by move: en; rewrite /n_samples el.
by cbn [of_opt rbind]; rewrite /guard; move/eqP/negbTE: sz => ->.
Qed.

(** C59, sensors kept as a flat array (as the data setter itself makes them): masking them
    raises ValueError if the number picked is odd or zero, no time is left, or measurements
    are set; otherwise the data comes back with twice as many rows as picked samples. *)
Theorem C59_flat_sensors s n p k t d lam se ti sm tm xm Is T X :
  setup s n p k t d lam se ti -> Nd.shape se = [:: k] ->
  picked n sm = Ok Is -> picked t tm = Ok T -> resolve k xm = Ok X ->
  if [&& ~~ odd (size X), (0 < size X * size T)%N & ~~ isSome (s_meas s)] then
    exists o, [/\ sample_data s sm tm (Some xm) = Ok o, dim (sd_data o) 0 = (2 * size Is)%N &
      dim (sd_lam o) 0 = size Is]
  else sample_data s sm tm (Some xm) = Err ValueError.
Proof.
move=> su hs eI eT eX; have := sample_dataE sm tm (Some xm) su.
case: su => -[ed el] [es et] [[wd hd] [wl hl]] [[ws [ns ds]] [wt ht]] hm.
have eX' : picked k (Some xm) = Ok X by [].
rewrite eI eT eX' => -[ti' [_ ->]].
have aX := picked_lt eX'; have aI := picked_lt eI.
have szx : size (data (take0 se X)) = size X.
  by rewrite (take0_1d ws _ aX) ?size_map //; left.
rewrite reshape2 szx; case od: (odd (size X)) => /=; first by rewrite dvdn2 od.
rewrite dvdn2 od; cbn [negb rbind].
have e2 : size X = (2 * (size X %/ 2))%N by rewrite mulnC divnK // dvdn2 od.
rewrite {1 2}/dim; cbn [Nd.shape nth]; set h := (size X %/ 2)%N in e2 *.
have sfl : size (flatten [seq prow d k t X T i | i <- Is]) = (2 * size Is * (size T * h))%N.
  have -> : (2 * size Is * (size T * h) = size Is * (size X * size T))%N.
    by rewrite e2 [(2 * size Is)%N]mulnC -!mulnA [(size T * h)%N]mulnC.
  by elim: (Is) => [//|i J ih] /=; rewrite size_cat ih mulSn /prow size_flatten_blocks.
case: (posnP (size X * size T)) => w0.
  have z : (size T * h = 0)%N by apply/eqP; move/eqP: w0; rewrite e2 !muln_eq0 orbC.
  by rewrite /np_reshape /wild /known /fill /prodn /= z.
have w1 : (0 < size T * h)%N by move: w0; rewrite e2 !muln_gt0 => /andP [/andP [_ ->] ->].
rewrite (reshape_w w1 sfl); cbn [rbind]; rewrite /pmeas; case: (s_meas s) => [m|] /=.
  rewrite size_flatten_blocks /guard; case: eqP => // e.
  have : (size T * h < size X * size T)%N.
    by rewrite [X in (_ < X)%N]mulnC ltn_mul2l; move: w1; rewrite muln_gt0 => /andP [-> h0] /=;
      rewrite e2 mul2n -addnn -{1}[h]addn0 ltn_add2l.
  by rewrite e ltnn.
eexists; split; first by []; first by [].
cbn [sd_lam]; case: (sm) eI => [m|] /= eI; first by [].
by case: eI => <-; rewrite size_iota /dim hl.
Qed.

(** ** C60: the sample whose data is closest *)
Lemma le_sqrt (x y : R) : 0 <= x -> 0 <= y -> (Num.sqrt x <= Num.sqrt y) = (x <= y).
Proof.
move=> x0; rewrite le_eqVlt => /orP [/eqP <-|y0]; last exact: ler_sqrt.
by rewrite sqrtr0 -sqrtr_eq0 eq_le sqrtr_ge0 andbT.
Qed.

Lemma argminP (ds : seq R) :
  if size ds is 0%N then argmin [seq Fin x | x <- ds] = Err ValueError else
  exists i, [/\ (i < size ds)%N, argmin [seq Fin x | x <- ds] = Ok i,
    forall i', (i' < size ds)%N -> nth 0 ds i <= nth 0 ds i' &
    forall i', (i' < i)%N -> nth 0 ds i < nth 0 ds i'].
Proof.
case eds: ds => [//|x0 ds0]; rewrite -eds; have: (0 < size ds)%N by rewrite eds.
case sz: (size ds) => [//|q0] _; rewrite -sz.
rewrite /argmin -map_comp; set l := [seq _ | _ <- ds].
have sl : size l = size ds by rewrite size_map.
have nl q : (q < size ds)%N -> nth NaN l q = Fin (- nth 0 ds q).
  by move=> hq; rewrite (nth_map 0).
have : is_ok (argmax l) by rewrite argmax_ok sl sz.
case em: (argmax l) => [i|] // _; have := argmaxP em.
have -> : has (@isnan R) l = false by rewrite /l has_map; apply/hasP => -[].
case; rewrite sl => hi h1 h2; exists i; split=> // q hq.
  by have := h1 _ hq; rewrite !nl //= ler_opp2.
have hq' := ltn_trans hq hi; by have := h2 _ hq; rewrite !nl //= ltr_opp2.
Qed.

Lemma zip_blocks (F H : nat -> nat -> R) (X T : seq nat) :
  [seq q.1 - q.2 | q <- zip (flatten [seq [seq F x j | j <- T] | x <- X])
                            (flatten [seq [seq H x j | j <- T] | x <- X])] =
  flatten [seq [seq F x j - H x j | j <- T] | x <- X].
Proof.
elim: X => [//|x X ih] /=; rewrite zip_cat ?size_map // map_cat ih; congr (_ ++ _).
by elim: T {ih} => [//|j T ih] /=; rewrite ih.
Qed.

(** Squared distance of sample i to the measurements, over the picked sensors and times. *)
Definition sqdist s d t (X T : seq nat) (i : nat) : R :=
  \sum_(x <- X) \sum_(j <- T) (ent d i (x * t + j) - meas_at s t x j) ^+ 2.

Definition row_of lam (p i : nat) : seq R := [seq ent lam i j | j <- iota 0 p].

Lemma rows_of a n p : nd_wf a -> Nd.shape a = [:: n; p] -> rows a = [seq row_of a p i | i <- iota 0 n].
Proof.
move=> wf e; have d0 : dim a 0 = n by rewrite /dim e.
have d1 : dim a 1 = p by rewrite /dim e.
have nd : ndim a = 2%N by rewrite /ndim e.
have sz := all_size_rows wf nd.
apply: (@eq_from_nth _ [::]); first by rewrite size_map size_iota size_rows.
rewrite size_rows d0 => i hi; rewrite (nth_map 0%N) ?size_iota // nth_iota // add0n.
have si : size (nth [::] (rows a) i) = p.
  by move/(all_nthP [::]): sz => /(_ i); rewrite size_rows d0 d1 => /(_ hi)/eqP.
apply: (@eq_from_nth _ 0); first by rewrite size_map size_iota.
by rewrite si => j hj; rewrite (nth_map 0%N) ?size_iota // nth_iota.
Qed.

Lemma prowE d n k t X T i : Nd.shape d = [:: n; (k * t)%N] -> (i < n)%N ->
  all (fun i => (i < k)%N) X -> all (fun i => (i < t)%N) T ->
  prow d k t X T i = flatten [seq [seq ent d i (x * t + j) | j <- T] | x <- X].
Proof.
move=> hd hi aX aT; rewrite /prow; congr flatten; apply/eq_in_map => x /(allP aX) hx.
apply/eq_in_map => j /(allP aT) hj; rewrite /ent nth_rows /dim hd //=.
have : (x.+1 * t <= k * t)%N by rewrite leq_mul2r hx orbT.
by rewrite mulSn; apply: leq_trans; rewrite addnC ltn_add2r.
Qed.

Lemma sample_data_rows s n p k t d lam se ti sm tm xm Is T X :
  setup s n p k t d lam se ti -> (xm <> None -> Nd.shape se = [:: k; 2%N]) ->
  picked n sm = Ok Is -> picked t tm = Ok T -> picked k xm = Ok X -> (0 < size X * size T)%N ->
  exists o, [/\ sample_data s sm tm xm = Ok o,
    rows (sd_data o) = [seq prow d k t X T i | i <- Is],
    sd_meas o = pmeas s t X T, dim (sd_lam o) 0 = size Is /\ dim (sd_data o) 0 = size Is &
    forall i, (i < size Is)%N -> nth [::] (rows (sd_lam o)) i = row_of lam p (nth 0%N Is i)].
Proof.
move=> su sx eI eT eX w0; have := C59_sample_data sm tm su sx; have := sample_dataE sm tm xm su.
rewrite eI eT eX => -[ti' [_ E]]; rewrite eqn0Ngt w0 => -[o [eo [[wl1 hl1] hl2] [[wo ho] _] _ _]].
exists o; rewrite eo; rewrite eo in E; have aI := picked_lt eI.
have srs : all (fun r => size r == (size X * size T)%N) [seq prow d k t X T i | i <- Is].
  by rewrite all_map; apply/allP => i _; rewrite /= /prow size_flatten_blocks.
move: E; case: (if xm is Some _ then _ else _) => [se'|] //; cbn [rbind].
case er: (np_reshape _ _) => [d'|] //; cbn [rbind].
have dd : data d' = flatten [seq prow d k t X T i | i <- Is].
  by move: er; rewrite /np_reshape; case: (wild _) => [|[|]] //; case: ifP => // _ [<-].
have wl' : nd_wf (if sm is Some _ then take0 lam Is else lam).
  case: su => _ _ [_ [wl hl]] _ _; case: (sm) => [m|] //.
  by have [_ []] := take0_2d wl hl aI.
case em: (if pmeas s t X T is Some _ then _ else _) => [m'|] //; cbn [rbind] => -[E].
have {}em : m' = pmeas s t X T.
  move: em; case: (pmeas s t X T) => [m|]; last by case.
  by rewrite /guard; case: ifP => //= _ [].
rewrite E /= in ho hl1 hl2 *; rewrite em; split=> //.
- rewrite /rows /dim ho dd /=; have := rows_flatten srs; by rewrite size_map.
- by rewrite /dim hl1 ho.
- move=> i hi; rewrite (rows_of wl' hl1) (nth_map 0%N) ?size_iota // nth_iota // add0n.
  by apply/eq_in_map => j; rewrite mem_iota => /= hj; apply: hl2.
Qed.

(** C60: get_closest_to_measurements returns the parameters of the first of the picked
    samples whose data has the smallest Euclidean distance to the measurements; ValueError
    if no sample is picked. *)
Theorem C60_closest_to_measurements s n p k t d lam se ti sm tm xm Is T X :
  setup s n p k t d lam se ti -> (xm <> None -> Nd.shape se = [:: k; 2%N]) ->
  picked n sm = Ok Is -> picked t tm = Ok T -> picked k xm = Ok X -> (0 < size X * size T)%N ->
  s_meas s <> None ->
  if size Is is 0%N then get_closest_to_measurements s sm tm xm = Err ValueError else
  exists i, [/\ (i < size Is)%N,
    get_closest_to_measurements s sm tm xm = Ok (row_of lam p (nth 0%N Is i)),
    forall i', (i' < size Is)%N -> sqdist s d t X T (nth 0%N Is i) <= sqdist s d t X T (nth 0%N Is i') &
    forall i', (i' < i)%N -> sqdist s d t X T (nth 0%N Is i) < sqdist s d t X T (nth 0%N Is i')].
Proof.
move=> su sx eI eT eX w0 ms.
have [o [eo ro mo [dl dd] lo]] := sample_data_rows su sx eI eT eX w0.
have aX := picked_lt eX; have aI := picked_lt eI; have aT := picked_lt eT.
have [em [sm' vm]] : pmeas s t X T = Some (flatten [seq [seq meas_at s t x j | j <- T] | x <- X]) /\ True /\ True.
  by rewrite /pmeas; case: (s_meas s) ms.
rewrite /get_closest_to_measurements eo; cbn [rbind]; rewrite mo em; cbn [of_opt rbind].
set ds := dists _ _.
have hd : Nd.shape d = [:: n; (k * t)%N] by case: su => _ _ [[]].
have dsE : ds = [seq Num.sqrt (sqdist s d t X T i) | i <- Is].
  rewrite /ds /dists ro -map_comp; apply/eq_in_map => i /(allP aI) hi /=.
  rewrite (prowE hd hi aX aT) zip_blocks /norm2 big_flatten /= big_map; congr Num.sqrt.
  by apply: eq_bigr => x _; rewrite big_map.
have sds : size ds = size Is by rewrite dsE size_map.
have := argminP ds; rewrite sds.
case sI: (size Is) => [|q]; first by move=> ->.
move=> [i [hi -> h1 h2]]; cbn [rbind].
have nds j : (j < size Is)%N -> nth 0 ds j = Num.sqrt (sqdist s d t X T (nth 0%N Is j)).
  by move=> hj; rewrite dsE (nth_map 0%N).
have ge0 j : 0 <= sqdist s d t X T j.
  by apply: sumr_ge0 => x _; apply: sumr_ge0 => y _; apply: sqr_ge0.
have hi' : (i < size Is)%N by rewrite sI.
exists i; split=> //.
- by rewrite /lam_row dl hi' lo.
- move=> j hj; have := h1 j hj.
  by rewrite !nds ?sI // le_sqrt.
- move=> j hj; have := h2 j hj; have hj' := ltn_trans hj hi'.
  by rewrite !nds // !ltNge le_sqrt.
Qed.

(** C60: without measurements, AttributeError. *)
Theorem C60_no_measurements s n p k t d lam se ti sm tm xm Is T X :
  setup s n p k t d lam se ti -> (xm <> None -> Nd.shape se = [:: k; 2%N]) ->
  picked n sm = Ok Is -> picked t tm = Ok T -> picked k xm = Ok X -> (0 < size X * size T)%N ->
  s_meas s = None -> get_closest_to_measurements s sm tm xm = Err AttributeError.
Proof.
move=> su sx eI eT eX w0 ms; have [o [eo _ mo _ _]] := sample_data_rows su sx eI eT eX w0.
by rewrite /get_closest_to_measurements eo; cbn [rbind]; rewrite mo /pmeas ms.
Qed.

(** C60: get_closest_to_true_vals, over all the data; the number of true values is the width
    of the data. *)
Definition sqdist_tv d (w : nat) (v : seq R) (i : nat) : R := \sum_(j < w) (ent d i j - nth 0 v j) ^+ 2.

Theorem C60_closest_to_true_vals s n w p d lam a :
  s_data s = Some d -> s_lam s = Some lam -> s_tv s = Some (NArr a) ->
  nd_wf d -> Nd.shape d = [:: n; w] -> nd_wf lam -> Nd.shape lam = [:: n; p] ->
  size (data a) = w ->
  if n is 0%N then get_closest_to_true_vals s = Err ValueError else
  exists i, [/\ (i < n)%N,
    get_closest_to_true_vals s = Ok (row_of lam p i),
    forall i', (i' < n)%N -> sqdist_tv d w (data a) i <= sqdist_tv d w (data a) i' &
    forall i', (i' < i)%N -> sqdist_tv d w (data a) i < sqdist_tv d w (data a) i'].
Proof.
move=> ed el et wd hd wl hl sa; rewrite /get_closest_to_true_vals ed el et; cbn [of_opt rbind].
have d1 : dim d 1 = w by rewrite /dim hd.
rewrite /dists_bcast d1 sa eqxx; cbn [orb rbind].
set ds := [seq norm2 (sub_bcast r (data a)) | r <- rows d].
have dsE : ds = [seq Num.sqrt (sqdist_tv d w (data a) i) | i <- iota 0 n].
  rewrite /ds (rows_of wd hd) -map_comp; apply/eq_map => i /=; congr Num.sqrt.
  have sr : size (row_of d w i) = w by rewrite size_map size_iota.
  rewrite /sub_bcast sr sa eqxx big_map.
  have -> : zip (row_of d w i) (data a) = [seq (ent d i j, nth 0 (data a) j) | j <- iota 0 w].
    apply: (@eq_from_nth _ (0, 0)); first by rewrite size_zip sr sa minnn size_map size_iota.
    rewrite size_zip sr sa minnn => j hj; rewrite nth_zip ?sr ?sa // !(nth_map 0%N) ?size_iota //.
    by rewrite nth_iota.
  by rewrite big_map -{1}[w]subn0 big_mkord.
have sds : size ds = n by rewrite dsE size_map size_iota.
have := argminP ds; rewrite sds; case: n hl hd dsE sds => [|q] hl hd dsE sds.
  by move=> ->.
move=> [i [hi -> h1 h2]]; cbn [rbind].
have nds j : (j < q.+1)%N -> nth 0 ds j = Num.sqrt (sqdist_tv d w (data a) j).
  by move=> hj; rewrite dsE (nth_map 0%N) ?size_iota // nth_iota.
have ge0 j : 0 <= sqdist_tv d w (data a) j by apply: sumr_ge0 => y _; apply: sqr_ge0.
exists i; split=> //.
- rewrite /lam_row {1}/dim hl /= hi (rows_of wl hl) (nth_map 0%N) ?size_iota //.
  by rewrite -[iota _ _]/(iota 0 q.+1) nth_iota.
- move=> j hj; have := h1 j hj.
  by rewrite !nds // le_sqrt.
- by move=> j hj; have := h2 j hj; have hj' := ltn_trans hj hi; rewrite !nds // !ltNge le_sqrt.
Qed.

(** C60: no true values: AttributeError; true values but no data: TypeError; wrong number of
    true values (neither being one): ValueError. *)
Theorem C60_true_vals_errors s :
  [/\ s_tv s = None -> get_closest_to_true_vals s = Err AttributeError,
      s_tv s <> None -> s_data s = None -> get_closest_to_true_vals s = Err TypeError &
      forall a d, s_tv s = Some (NArr a) -> s_data s = Some d -> size (data a) <> dim d 1 ->
        size (data a) <> 1%N -> dim d 1 <> 1%N -> get_closest_to_true_vals s = Err ValueError].
Proof.
rewrite /get_closest_to_true_vals; split.
- by move=> ->.
- by case: (s_tv s) => [[a|]|] // _ ->.
- move=> a d -> -> /eqP/negbTE h1 /eqP/negbTE h2 /eqP/negbTE h3; cbn [of_opt rbind].
  by rewrite /dists_bcast h1 h2 h3.
Qed.
End StProps3.
