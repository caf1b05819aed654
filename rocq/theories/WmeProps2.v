(** Properties C28-C30: several quantities of interest, and funs.wme. *)
Set Warnings "-notation-overridden,-ambiguous-paths".
From mathcomp Require Import all_ssreflect all_algebra perm.
From mathcomp.algebra_tactics Require Import ring.
From Coq Require Import String.
From Verif Require Import Py Nd Spec LinAlg Dmx DmxProofs LgpModel FunctionalProofs LinProps WmeModel WmeProps.
Set Implicit Arguments. Unset Strict Implicit. Unset Printing Implicit Defensive.
Import Order.Theory GRing.Theory Num.Theory.
Local Open Scope ring_scope.

Section WmeProps2.
Variable R : rcfType.

Lemma Ok_inj A (a b : A) : Ok a = Ok b -> a = b.
Proof. by case. Qed.

Lemma rmapM_ok A B (f : A -> res B) s ys : rmapM f s = Ok ys ->
  size ys = size s /\ forall x0 y0 i, (i < size s)%N -> f (nth x0 s i) = Ok (nth y0 ys i).
Proof.
elim: s ys => [|x s ih] ys /=; first by move=> [<-].
case E: (f x) => [y|] //=; case E2: (rmapM f s) => [ys'|] //= [<-] /=.
have [-> h] := ih _ E2; split=> // x0 y0 [|i] hi //=; exact: h.
Qed.

Lemma rmapM_is_ok A B (f : A -> res B) s : is_ok (rmapM f s) = all (fun x => is_ok (f x)) s.
Proof. by elim: s => //= x s <-; case: (f x) => //= y; case: (rmapM f s). Qed.

Lemma rows1 (ms : seq (dmx R)) : all (fun m => dr m == 1%N) ms ->
  flatten [seq [seq (m, i) | i <- iota 0 (dr m)] | m <- ms] = [seq (m, 0%N) | m <- ms].
Proof. by elim: ms => //= m ms ih /andP [/eqP -> /ih ->]. Qed.

Lemma vstack1 m0 (ms : seq (dmx R)) : all (fun m => dr m == 1%N) ms ->
  vstack ms = if (0 < size ms)%N && all (fun m => dc m == dc (head m0 ms)) ms
    then Ok (dbuild (size ms) (dc (head m0 ms)) (fun i j => dget (nth m0 ms i) 0 j))
    else Err ValueError.
Proof.
case: ms => [//|m ms] h1; rewrite /vstack (rows1 h1) [size [seq _ | _ <- _]]size_map.
cbn [size ltn0Sn andb head]; rewrite /= eqxx /=; case: ifP => // _; congr Ok.
apply: dmx_ext => //= i j hi hj; rewrite !dget_build //.
case: i hi => [//|i] hi /=; rewrite (nth_map m) //.
by congr dget; apply: set_nth_default.
Qed.

(** The standard deviations of the quantities of interest. *)
Definition nstd (n : nat) (stds : stdlist R) : nat :=
  match stds with LNum _ => n | LSeq s => size s end.
Definition std_at (stds : stdlist R) (i : nat) : stdarg R :=
  match stds with LNum r => SNum r | LSeq s => nth (SNum 0) s i end.
(** [zip] stops at the shortest list. *)
Definition nqoi (ops : seq (dmx R)) (datas : seq (seq R)) (stds : stdlist R) : nat :=
  minn (size ops) (minn (size datas) (nstd (size datas) stds)).

Definition stds_of (datas : seq (seq R)) (stds : stdlist R) : seq (stdarg R) :=
  match stds with LNum r => nseq (size datas) (SNum r) | LSeq s => s end.

Lemma size_zip3 (ops : seq (dmx R)) datas stds :
  size (zip3 ops datas (stds_of datas stds)) = nqoi ops datas stds.
Proof.
by rewrite /zip3 !size_zip /nqoi; case: stds => [r|s] //=; rewrite size_nseq.
Qed.

Lemma nth_zip3 A B C (a : seq A) (b : seq B) (c : seq C) a0 b0 c0 i :
  (i < size (zip3 a b c))%N ->
  nth (a0, (b0, c0)) (zip3 a b c) i = (nth a0 a i, (nth b0 b i, nth c0 c i)).
Proof.
rewrite /zip3 !size_zip !leq_min => /and3P [h1 h2 h3].
elim: a b c i h1 h2 h3 => [|x a ih] [|y b] [|z c] [|i] //=; exact: ih.
Qed.

Lemma nth_stds_of datas stds i : (i < size datas)%N ->
  nth (SNum 0) (stds_of datas stds) i = std_at stds i.
Proof. by move=> h; case: stds => [r|s] //=; rewrite nth_nseq h. Qed.

Definition tl_of (t : dmx R * (seq R * stdarg R)) := transform_linear_map t.1 t.2.1 t.2.2.

Lemma setupE ops datas stds : transform_linear_setup ops datas stds =
  (rs <- rmapM tl_of (zip3 ops datas (stds_of datas stds)) ;;
   A <- vstack [seq rowval2 r.1 | r <- rs] ;;
   b <- vstack [seq drow [:: r.2] | r <- rs] ;; Ok (A, b)).
Proof. by []. Qed.

Definition m0 : dmx R := dzeros 0 0.

Section OneSetup.
Variables (ops : seq (dmx R)) (datas : seq (seq R)) (stds : stdlist R).
Hypothesis ops1 : all (fun op => (0 < dr op)%N) ops.
Notation k := (nqoi ops datas stds).
Notation op_ i := (nth m0 ops i).
Notation dat_ i := (nth [::] datas i).

Lemma lt_nqoi i : (i < k)%N -> (i < size ops)%N /\ (i < size datas)%N.
Proof. by rewrite /nqoi !leq_min => /and3P []. Qed.

Lemma rows_of_setup rs : rmapM tl_of (zip3 ops datas (stds_of datas stds)) = Ok rs ->
  size rs = k /\ forall i, (i < k)%N ->
    transform_linear_map (op_ i) (dat_ i) (std_at stds i) = Ok (nth (Row1 [::], 0) rs i).
Proof.
move=> /rmapM_ok; rewrite size_zip3 => -[e h]; split=> // i hi.
have [h1 h2] := lt_nqoi hi.
have := h (m0, ([::], SNum 0)) (Row1 [::], 0) i hi.
by rewrite nth_zip3 ?size_zip3 // /tl_of /= nth_stds_of.
Qed.

Lemma all_rows1 rs : rmapM tl_of (zip3 ops datas (stds_of datas stds)) = Ok rs ->
  all (fun m => dr m == 1%N) [seq rowval2 r.1 | r <- rs] /\
  forall i, (i < k)%N -> dc (nth m0 [seq rowval2 r.1 | r <- rs] i) = dc (op_ i).
Proof.
move=> h; have [e hi] := rows_of_setup h.
have w i : (i < k)%N -> dr (nth m0 [seq rowval2 r.1 | r <- rs] i) = 1%N /\
   dc (nth m0 [seq rowval2 r.1 | r <- rs] i) = dc (op_ i).
  move=> ik; have [i1 _] := lt_nqoi ik.
  have := hi _ ik; case E: (nth _ rs i) => [row b] ht.
  have [] := C25_transformed_map_is_wme (all_nthP m0 ops1 i i1) ht.
  by rewrite (nth_map (Row1 [::], 0)) ?e // E => -> [].
split; last by move=> i /w [].
by apply/(all_nthP m0) => i; rewrite size_map e => /w [-> _].
Qed.

Lemma setup_vstack rs : rmapM tl_of (zip3 ops datas (stds_of datas stds)) = Ok rs ->
  vstack [seq drow [:: r.2] | r <- rs]
  = if (0 < size rs)%N then Ok (dbuild (size rs) 1 (fun i _ => (nth (Row1 [::], 0) rs i).2))
    else Err ValueError.
Proof.
move=> h; rewrite (vstack1 m0); last by elim: (rs).
rewrite size_map; case: rs {h} => [//|r rs] /=.
have -> : all (fun m => dc m == 1%N) [seq drow [:: r0.2] | r0 <- rs] by elim: rs.
rewrite /=; congr Ok; apply: dmx_ext => //= i j hi hj; rewrite !dget_build //.
have -> : j = 0%N by case: j hj.
case: i hi => [|i] hi /=; first by rewrite dget_drow.
by rewrite (nth_map (Row1 [::], 0)) // dget_drow.
Qed.

(** When the setup succeeds there is one row per quantity of interest, in order, and row
    [i] is the weighted mean error of operator [i] and data [i]. *)
Theorem C28_one_row_per_qoi A b :
  transform_linear_setup ops datas stds = Ok (A, b) ->
  [/\ (0 < k)%N, dr A = k, dr b = k, dc b = 1%N &
   forall i, (i < k)%N -> dc A = dc (op_ i) /\
     forall x : nat -> R, \sum_(j < dc A) dget A i j * x j + dget b i 0
     = @wme_spec R (size (dat_ i)) (predict (op_ i) x) (fun j => nth 0 (dat_ i) j)
         (std_of (std_at stds i))].
Proof.
rewrite setupE; case E: (rmapM _ _) => [rs|] //=.
have [e hi] := rows_of_setup E; have [a1 dci] := all_rows1 E.
rewrite (vstack1 m0 a1) size_map e; case: ifP => //= /andP [k0 alld].
rewrite (setup_vstack E) e k0 => -[<- <-]; split=> // i ik.
have [i1 _] := lt_nqoi ik.
have := hi _ ik; case En: (nth _ rs i) => [row c] ht.
have [_ [hd hx]] := C25_transformed_map_is_wme (all_nthP m0 ops1 i i1) ht.
have hw : dc (dbuild (R:=R) k (dc (head m0 [seq rowval2 r.1 | r <- rs]))
   (fun i j => dget (nth m0 [seq rowval2 r.1 | r <- rs] i) 0 j)) = dc (op_ i).
  rewrite /= -dci //; apply/eqP; rewrite eq_sym.
  by apply: (all_nthP m0 alld); rewrite size_map e.
split=> // x; rewrite hw -hx dget_build // En; congr (_ + _).
apply: eq_bigr => j _; congr (_ * _).
rewrite dget_build //; last by rewrite hw.
by rewrite (nth_map (Row1 [::], 0)) ?e // En.
Qed.

(** The setup succeeds exactly when there is a quantity of interest, each of them is
    accepted, and all operators have the same width. *)
Theorem C28_succeeds_iff :
  is_ok (transform_linear_setup ops datas stds) =
  [&& (0 < k)%N,
      all (fun i => is_ok (transform_linear_map (op_ i) (dat_ i) (std_at stds i))) (iota 0 k)
    & all (fun i => dc (op_ i) == dc (op_ 0)) (iota 0 k)].
Proof.
rewrite setupE; have := rmapM_is_ok tl_of (zip3 ops datas (stds_of datas stds)).
have <- : all (fun x => is_ok (tl_of x)) (zip3 ops datas (stds_of datas stds)) =
   all (fun i => is_ok (transform_linear_map (op_ i) (dat_ i) (std_at stds i))) (iota 0 k).
  apply/(all_nthP (m0, ([::], SNum 0)))/allP => h i; rewrite ?size_zip3.
    rewrite mem_iota add0n => ik; have := h i; rewrite size_zip3 nth_zip3 ?size_zip3 //.
    by have [_ i2] := lt_nqoi ik; rewrite /tl_of /= nth_stds_of //; apply.
  move=> ik; have := h i; rewrite mem_iota add0n => /(_ ik).
  by have [_ i2] := lt_nqoi ik; rewrite nth_zip3 ?size_zip3 // /tl_of /= nth_stds_of.
case E: (rmapM _ _) => [rs|] /= <-; last by rewrite andbF.
have [e hi] := rows_of_setup E; have [a1 dci] := all_rows1 E.
rewrite (vstack1 m0 a1) size_map e (setup_vstack E) e.
case: ltnP => //= k0.
have -> : all (fun m => dc m == dc (head m0 [seq rowval2 r.1 | r <- rs]))
     [seq rowval2 r.1 | r <- rs] = all (fun i => dc (op_ i) == dc (op_ 0)) (iota 0 k).
  rewrite -nth0 dci //; apply/(all_nthP m0)/allP => h i.
    rewrite mem_iota add0n => ik; rewrite -(dci i) //; apply: h.
    by rewrite size_map e.
  rewrite size_map e => ik; rewrite dci //; apply: h.
  by rewrite mem_iota add0n.
by case: ifP.
Qed.
End OneSetup.

Lemma dmx_of_nd (a : dmx R) : dmx_of (nd_of_dmx a) = a.
Proof.
apply: dmx_ext => //= i j; rewrite /dim /= => hi hj.
rewrite dget_build // /dravel (nth_map 0%N) ?size_iota; last first.
  by apply: leq_trans (leq_mul hi (leqnn _)); rewrite mulSn addnC ltn_add2r.
rewrite nth_iota ?add0n; last first.
  by apply: leq_trans (leq_mul hi (leqnn _)); rewrite mulSn addnC ltn_add2r.
by rewrite divnMDl ?modnMDl ?divn_small ?addn0 ?modn_small //; apply: leq_trans hj.
Qed.

Lemma dcol_ravel (a : dmx R) : dc a = 1%N -> dcol (dravel a) = a.
Proof.
move=> c1; apply: dmx_ext; rewrite /= ?size_map ?size_iota ?c1 ?muln1 // => i j hi hj.
rewrite dget_build ?size_map ?size_iota ?c1 ?muln1 // /dravel.
rewrite (nth_map 0%N) ?size_iota ?c1 ?muln1 // nth_iota // divn1 modn1 add0n.
by case: j hj.
Qed.

Lemma lwmeE (ops : seq (dmx R)) datas sigma y mean ci co al :
  lwme_init ops datas sigma y mean ci co al =
  (rs <- rmapM tl_of (zip3 ops datas (stds_of datas sigma)) ;;
   A <- vstack [seq rowval2 r.1 | r <- rs] ;;
   B <- vstack [seq drow [:: r.2] | r <- rs] ;;
   lgp_init (nd_of_dmx A) (Some (nd_of_dmx B)) y mean ci co al).
Proof. by []. Qed.

(** LinearWMEProblem stores the same A and b, and fails whenever the setup fails; with the
    default [y] it succeeds exactly when the setup does and the data [y] are zero. *)
Theorem C28_lwme_same_as_setup (ops : seq (dmx R)) datas sigma y mean ci co al p :
  all (fun op => (0 < dr op)%N) ops ->
  lwme_init ops datas sigma y mean ci co al = Ok p ->
  transform_linear_setup ops datas sigma = Ok (lA p, lb p).
Proof.
move=> ops1; rewrite lwmeE.
have := @C28_one_row_per_qoi ops datas sigma ops1.
rewrite setupE; case: (rmapM _ _) => [rs|] //=.
case: (vstack _) => [A|] //=; case: (vstack _) => [B|] //= /(_ A B erefl) [_ _ _ hb _].
rewrite /lgp_init /ndim /= dmx_of_nd; case: ifP => //= _ [<-] /=.
by rewrite dcol_ravel.
Qed.

Theorem C28_lwme_default_y (ops : seq (dmx R)) datas sigma mean ci co al :
  all (fun op => (0 < dr op)%N) ops ->
  match transform_linear_setup ops datas sigma,
        lwme_init ops datas sigma None mean ci co al with
  | Ok (A, b), Ok p => [/\ lA p = A, lb p = b & ly p = dzeros (dr A) 1]
  | Err e, Err e' => e = e'
  | _, _ => False
  end.
Proof.
move=> ops1; have := @C28_lwme_same_as_setup ops datas sigma None mean ci co al.
rewrite lwmeE setupE.
case: (rmapM _ _) => [rs|] //=; case: (vstack _) => [A|] //=; case: (vstack _) => [B|] //=.
rewrite /lgp_init /ndim /= dmx_of_nd eqxx /= => /(_ _ ops1 erefl) /= [eb].
by split.
Qed.

(** ** C29: funs.wme *)
Section Wme.
Variables (n N : nat).
Implicit Types (P : 'M[R]_(n, N)) (d : 'cV[R]_N).

(** The function's value on predictions [P] (2-D array) and flat data [d]. *)
Definition wme_is (P : 'M[R]_(n, N)) (d : 'cV[R]_N) (sd : option R) (v : 'I_n -> R) :=
  forall p dat : nd R, holds2 p P -> shape dat = [:: N] -> holds1 dat d ->
  wme p dat sd = Ok [seq v i | i <- enum 'I_n].

Theorem C29_formula P d (sd : R) :
  wme_is P d (Some sd) (fun i => \sum_j (P i j - d j 0) / (sd * Num.sqrt N%:R)).
Proof.
move=> p dat hp sv hv; rewrite (wmeE (Some sd) hp sv hv); congr Ok; apply: eq_map => i.
rewrite /wme_spec mulr_sumr; apply: eq_bigr => j _.
by rewrite invfM mulrCA [(Num.sqrt _)^-1 * _]mulrC.
Qed.

(** Without [sd], the population standard deviation of the data is used. *)
Definition mean_of (d : 'cV[R]_N) : R := (\sum_i d i 0) / N%:R.
Definition std_dev_of (d : 'cV[R]_N) : R :=
  Num.sqrt ((\sum_i (d i 0 - mean_of d) ^+ 2) / N%:R).

Lemma data_enum (dat : nd R) d : holds1 dat d -> data dat = [seq d i 0 | i <- enum 'I_N].
Proof.
move=> [sz hv]; apply: (@eq_from_nth _ 0); first by rewrite size_map size_enum_ord.
move=> i; rewrite sz => hi; rewrite (nth_map (Ordinal hi)) ?size_enum_ord //.
by rewrite -[i in LHS]/(nat_of_ord (Ordinal hi)) hv; congr (d _ 0); apply/val_inj; rewrite /= nth_enum_ord.
Qed.

Lemma np_stdE (dat : nd R) d : holds1 dat d -> np_std (data dat) = std_dev_of d.
Proof.
move=> h; rewrite (data_enum h) /np_std size_map size_enum_ord /std_dev_of /mean_of.
by rewrite !big_map -!enumT !big_enum.
Qed.

Theorem C29_default_sd P d :
  wme_is P d None (fun i => \sum_j (P i j - d j 0) / (std_dev_of d * Num.sqrt N%:R)).
Proof.
move=> p dat hp sv hv; rewrite (wmeE None hp sv hv); congr Ok; apply: eq_map => i.
rewrite /wme_spec mulr_sumr; apply: eq_bigr => j _.
by rewrite (np_stdE hv) invfM mulrCA [(Num.sqrt _)^-1 * _]mulrC.
Qed.

(** ValueError exactly when the widths differ. *)
Theorem C29_error_iff n' N' (p dat : nd R) sd (P : 'M[R]_(n', N')) :
  holds2 p P -> ndim dat = 1%N -> size (data dat) = dim dat 0 ->
  (wme p dat sd = Err ValueError <-> N' <> size (data dat)) /\
  (is_ok (wme p dat sd) <-> N' = size (data dat)).
Proof.
move=> hp nd1 wf; case: (N' =P size (data dat)) => [e|ne]; last first.
  suff -> : wme p dat sd = Err ValueError by split.
  case: hp => sp _; rewrite /wme /ndim sp /=.
  by rewrite sp /= -wf /dim sp /=; case: eqP.
have sv : shape dat = [:: N'].
  by rewrite e wf /dim; move: nd1; rewrite /ndim; case: (shape dat) => [|a [|]].
have hv : holds1 dat (\col_i nth 0 (data dat) i : 'cV[R]_N').
  by split=> // i; rewrite mxE.
by rewrite (wmeE sd hp sv hv); split.
Qed.

(** A flat list of predictions is one sample. *)
Theorem C29_flat_predictions (s : seq R) dat sd : (0 < size s)%N ->
  wme (nd1 s) dat sd = wme (Nd [:: 1%N; size s] s) dat sd.
Proof.
by move=> s0; rewrite /wme /ndim /= /np_reshape /wild /known /fill /= dvd1n divn1.
Qed.

(** Additive in the residuals. *)
Theorem C29_additive P Q d e (sd : R) u v :
  wme_is P d (Some sd) u -> wme_is Q e (Some sd) v ->
  wme_is (P + Q) (d + e) (Some sd) (fun i => u i + v i).
Proof.
have ex (M : 'M[R]_(n, N)) : exists p : nd R, holds2 p M.
  exists (nd_of_dmx (Dmx M)); split=> // i j.
  have := congr1 (fun m => dget m i j) (dmx_of_nd (Dmx M)).
  by rewrite dgetE dget_build.
have exd (c : 'cV[R]_N) : exists2 p : nd R, shape p = [:: N] & holds1 p c.
  exists (nd1 [seq c i 0 | i <- enum 'I_N]); first by rewrite /= size_map size_enum_ord.
  split=> [|i]; first by rewrite /= size_map size_enum_ord.
  by rewrite /= (nth_map i) ?size_enum_ord // nth_ord_enum.
have inj (M : 'M[R]_(n, N)) c w w' : wme_is M c (Some sd) w -> wme_is M c (Some sd) w' -> w =1 w'.
  have [p hp] := ex M; have [q sq hq] := exd c.
  move=> /(_ _ _ hp sq hq) h1 /(_ _ _ hp sq hq); rewrite h1 => h2 i; have h := Ok_inj h2.
  have : nth 0 [seq w k | k <- enum 'I_n] i = nth 0 [seq w' k | k <- enum 'I_n] i by rewrite h.
  by rewrite !(nth_map i) -?enumT ?size_enum_ord // nth_ord_enum.
move=> hu hv p dat hp sv hd; rewrite (C29_formula _ hp sv hd).
congr Ok; apply: eq_map => i.
rewrite (inj _ _ _ _ hu (@C29_formula P d sd)) (inj _ _ _ _ hv (@C29_formula Q e sd)).
rewrite -big_split /=; apply: eq_bigr => j _; rewrite !mxE -mulrDl; congr (_ * _).
by rewrite opprD addrACA.
Qed.

(** Invariant under a common reordering of the observations, with or without [sd]. *)
Theorem C29_permutation P d sd (s : 'S_N) p dat p' dat' :
  holds2 p P -> shape dat = [:: N] -> holds1 dat d ->
  holds2 p' (\matrix_(i, j) P i (s j)) -> shape dat' = [:: N] ->
  holds1 dat' (\col_j d (s j) 0) ->
  wme p dat sd = wme p' dat' sd.
Proof.
move=> hp sv hv hp' sv' hv'.
have e : np_std (data dat') = np_std (data dat).
  rewrite (np_stdE hv) (np_stdE hv') /std_dev_of.
  have -> : mean_of (\col_j d (s j) 0) = mean_of d.
    rewrite /mean_of; congr (_ / _); rewrite [RHS](reindex_inj (@perm_inj _ s)).
    by apply: eq_bigr => j _; rewrite mxE.
  congr (Num.sqrt (_ / _)); rewrite [RHS](reindex_inj (@perm_inj _ s)).
  by apply: eq_bigr => j _; rewrite mxE.
rewrite (wmeE sd hp sv hv) (wmeE sd hp' sv' hv') e; congr Ok; apply: eq_map => i.
rewrite /wme_spec; congr (_ * _); rewrite [LHS](reindex_inj (@perm_inj _ s)).
by apply: eq_bigr => j _; rewrite !mxE.
Qed.

(** Zero on exact predictions. *)
Theorem C29_zero_on_exact d sd p dat :
  holds2 p (\matrix_(i < n, j < N) d j 0) -> shape dat = [:: N] -> holds1 dat d ->
  wme p dat sd = Ok (nseq n 0).
Proof.
move=> hp sv hv; rewrite (wmeE sd hp sv hv); congr Ok.
apply: (@eq_from_nth _ 0); first by rewrite size_nseq size_map size_enum_ord.
move=> i; rewrite size_map size_enum_ord => hi; rewrite nth_nseq hi.
rewrite (nth_map (Ordinal hi)) ?size_enum_ord //.
rewrite /wme_spec big1 ?mulr0 // => j _.
by rewrite mxE subrr mul0r.
Qed.
End Wme.

(** ** C30: data given as a column of shape (N, 1) *)
Section Column.
Variables (n N : nat) (P : 'M[R]_(n, N)) (d : 'cV[R]_N) (p dat : nd R) (sd : R).
Hypothesis hp : holds2 p P.
Hypothesis hs : shape dat = [:: N; 1%N].
Hypothesis hv : holds1 dat d.

Lemma as_col : as_row_or_2d dat = Dmx d.
Proof.
rewrite /as_row_or_2d /ndim hs /= /dmx_of /dim hs /=; apply: dbuildE => i j.
by rewrite muln1 (ord1 j) addn0; case: hv => _ ->.
Qed.

Lemma wme_col : wme p dat (Some sd) =
  (D <- dsub (Dmx P) (Dmx d) ;;
   Ok [seq \sum_(j < dc D) ((sd * sqrtn R N)^-1 * dget D i j) | i <- iota 0 (dr D)]).
Proof.
case: hp => sp hpv.
have ep : dmx_of p = Dmx P by rewrite /dmx_of /dim sp /=; apply: dbuildE => i j; rewrite hpv.
rewrite /wme as_col /ndim /dim sp hs /=; cbn [rbind].
by rewrite ep sp /= eqxx.
Qed.

(** A number of samples other than 1 and N is rejected ... *)
Theorem C30_column_rejected : n != 1%N -> n != N -> N != 1%N ->
  wme p dat (Some sd) = Err ValueError.
Proof.
move=> n1 nN N1; rewrite wme_col /dsub /dbop /bdim /= (negbTE n1) (negbTE nN) (negbTE N1).
by [].
Qed.

End Column.

(** ... for n = N samples, sample i is compared with observation i only ... *)
Theorem C30_column_square N (P : 'M[R]_N) (d : 'cV[R]_N) (p dat : nd R) sd :
  holds2 p P -> shape dat = [:: N; 1%N] -> holds1 dat d ->
  wme p dat (Some sd) = Ok [seq \sum_j (P i j - d i 0) / (sd * Num.sqrt N%:R) | i <- enum 'I_N].
Proof.
move=> hp hs hv; rewrite (wme_col sd hp hs hv) /dsub dbop_col; cbn [rbind dr dc]; congr Ok.
rewrite -val_enum_ord -map_comp; apply: eq_map => i /=.
by apply: eq_bigr => j _; rewrite dgetE mxE mulrC.
Qed.

(** ... for a single sample, N values come back instead of one: value i compares every
    prediction with observation i ... *)
Theorem C30_column_one_sample N (P : 'rV[R]_N) (d : 'cV[R]_N) (p dat : nd R) sd :
  holds2 p P -> shape dat = [:: N; 1%N] -> holds1 dat d ->
  wme p dat (Some sd) = Ok [seq \sum_j (P 0 j - d i 0) / (sd * Num.sqrt N%:R) | i <- enum 'I_N].
Proof.
move=> hp hs hv; rewrite (wme_col sd hp hs hv) /dsub /dbop /= bdim1l bdim1r.
cbn [rbind dr dc]; congr Ok.
rewrite -val_enum_ord -map_comp; apply: eq_map => i /=.
apply: eq_bigr => j _; rewrite dget_build // mulrC; congr ((_ - _) / _).
  by rewrite /bidx /= -/(bidx N j) bidx_ord -[0%N]/(nat_of_ord (ord0 : 'I_1)) dgetE.
by rewrite bidx_ord /bidx /= -[0%N]/(nat_of_ord (ord0 : 'I_1)) dgetE.
Qed.

(** ... and for one observation the result is that of the flat list. *)
Theorem C30_column_single_observation n (P : 'M[R]_(n, 1)) (d : 'cV[R]_1) (p dat flat : nd R) sd :
  holds2 p P -> shape dat = [:: 1%N; 1%N] -> holds1 dat d ->
  shape flat = [:: 1%N] -> data flat = data dat ->
  wme p dat (Some sd) = wme p flat (Some sd).
Proof.
move=> hp hs hv hs' hd.
have hv' : holds1 flat d by case: hv => h1 h2; split; rewrite hd.
rewrite (wme_col sd hp hs hv) (C29_formula _ hp hs' hv').
have -> : d = d^T by apply/matrixP => i j; rewrite !mxE (ord1 i) (ord1 j).
rewrite dsub_row; cbn [rbind dr dc]; congr Ok.
rewrite -val_enum_ord -map_comp; apply: eq_map => i /=.
apply: eq_bigr => j _; rewrite dgetE !mxE mulrC.
by rewrite (ord1 j).
Qed.

(** So column data need not give the result of the flat list. *)
Theorem C30_agrees_refuted : exists (p dat : nd R),
  [/\ shape p = [:: 1; 2]%N, shape dat = [:: 2; 1]%N
    & wme p dat (Some 1) <> wme p (Nd [:: 2%N] (data dat)) (Some 1)].
Proof.
exists (Nd [:: 1; 2]%N [:: 0; 0]), (Nd [:: 2; 1]%N [:: 0; 0]); split=> //.
Qed.
End WmeProps2.
