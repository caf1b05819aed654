(** SpatioTemporalProblem.mud_problem: relation to funs.wme, unknown methods, PCA and SVD
    maps, data weights; measurements_from_reference. *)
Set Warnings "-notation-overridden,-ambiguous-paths".
From mathcomp Require Import all_ssreflect all_algebra.
From Coq Require Import String.
From Verif Require Import Py Nd Spec LinAlg Dmx LgpModel WmeModel LinProps WmeProps WmeProps2.
From Verif Require Import Xnum XnumProofs UtilModel DensityModel NdProofs UtilModel2 UtilProps UtilProps2
  StModel StProps StProps2 StProps3 StProps4.
Set Implicit Arguments. Unset Strict Implicit. Unset Printing Implicit Defensive.
Import Order.Theory GRing.Theory Num.Theory.
Local Open Scope ring_scope.

Section Qoi.
Variable R : rcfType.
Notation nd := (nd R).
Notation st := (st R).
Implicit Types (s : st) (a d lam : nd).
Variables (D : Type) (trunc : R -> R).
Variables (pca_components : nd -> int -> res nd) (svd_v : nd -> res nd).
Notation mud_problem := (st_mud_problem D trunc pca_components svd_v).

Lemma sum_blocks (F : nat -> R) k t :
  \sum_(q < k * t) F q = \sum_(x <- iota 0 k) \sum_(j <- iota 0 t) F (x * t + j)%N.
Proof.
rewrite -(big_mkord xpredT) /index_iota subn0; elim: k => [|k ih]; first by rewrite mul0n !big_nil.
rewrite mulSn addnC -[k.+1]addn1 !iotaD !big_cat ih !add0n; congr (_ + _); rewrite [RHS]big_seq1.
by rewrite -{1}[(k * t)%N]addn0 iotaDl big_map.
Qed.

(** C62: compared with funs.wme of all the data and measurements, the sign is opposite and the
    factor is sqrt(#data points) / sqrt(#samples): the two agree up to sign only when there
    are as many samples as data points (or the value is zero). *)
Theorem C62_relation_to_wme s n p k t d lam se ti m sd v i :
  setup s n p k t d lam se ti -> s_meas s = Some (NArr m) -> (0 < k * t)%N ->
  wme d (nd1 (data m)) (Some sd) = Ok v -> (i < n)%N ->
  wme_qoi s d t (iota 0 k) (iota 0 t) sd n i =
    - nth 0 v i * (Num.sqrt (k * t)%:R / Num.sqrt n%:R).
Proof.
move=> su em kt ew hi.
case: su => -[ed el] [es et] [[wd hd] [wl hl]] _; rewrite em => sm.
pose P : 'M[R]_(n, (k * t)%N) := \matrix_(i, j) ent d i j.
pose c : 'cV[R]_(k * t) := \col_j nth 0 (data m) j.
have hP : holds2 d P.
  by split=> // a b; rewrite mxE /ent nth_rows /dim hd /=.
have hc : holds1 (nd1 (data m)) c by split=> // b; rewrite mxE.
have sh : Nd.shape (nd1 (data m)) = [:: (k * t)%N] by rewrite /= sm.
have := @C29_formula R n _ P c sd d (nd1 (data m)) hP sh hc; rewrite ew => -[->].
rewrite (nth_map (Ordinal hi)) ?size_enum_ord // /wme_qoi.
have -> : nth (Ordinal hi) (enum 'I_n) i = Ordinal hi by apply/val_inj; rewrite /= nth_enum_ord.
pose F (q : nat) := (ent d i q - nth 0 (data m) q) / (sd * Num.sqrt (k * t)%:R).
have -> : \sum_j (P (Ordinal hi) j - c j 0) / (sd * Num.sqrt (k * t)%:R) = \sum_(q < k * t) F q.
  by apply: eq_bigr => q _; rewrite !mxE.
rewrite sum_blocks /F /meas_at em mulrA -sumrN; congr (_ / _); rewrite mulr_suml.
apply: eq_bigr => x _; rewrite -sumrN mulr_suml; apply: eq_bigr => j _.
have q0 : Num.sqrt (k * t)%:R != 0 :> R by rewrite sqrtr_eq0 -ltNge ltr0n.
by rewrite invfM mulrA -mulNr mulfVK // -mulNr opprB.
Qed.

(** C63: an unknown method never yields a problem, and ValueError is not raised for it: on a
    problem that is set up, with data weights left out, the exception is UnboundLocalError. *)
Definition known_method (me : string) : bool :=
  [|| (me =? "wme")%string, (me =? "pca")%string | (me =? "svd")%string].

Theorem C63_unknown_method s me dw sw kc sm tm xm : known_method me = false ->
  forall P, mud_problem s me dw sw kc sm tm xm <> Ok P.
Proof.
rewrite /known_method => /negbT; rewrite !negb_or => /and3P [/negbTE n1 /negbTE n2 /negbTE n3] P.
rewrite /st_mud_problem; case: (sample_data _ _ _ _) => [o|] //; cbn [rbind].
case: (residuals _ _) => [r|] //; cbn [rbind]; case: (apply_weights _ _ _) => [r'|] //; cbn [rbind].
by rewrite /qoi_map n1 n2 n3.
Qed.

Theorem C63_unknown_method_error s n p k t d lam se ti sm tm xm Is T X sd me sw kc :
  setup s n p k t d lam se ti -> (xm <> None -> Nd.shape se = [:: k; 2%N]) ->
  picked n sm = Ok Is -> picked t tm = Ok T -> picked k xm = Ok X -> (0 < size X * size T)%N ->
  s_meas s <> None -> s_sd s = Some sd -> known_method me = false ->
  mud_problem s me None sw kc sm tm xm = Err UnboundLocalError.
Proof.
move=> su sx eI eT eX w0 ms esd.
rewrite /known_method => /negbT; rewrite !negb_or => /and3P [/negbTE n1 /negbTE n2 /negbTE n3].
have [o [eo ro _ _ _]] := residualsE su sx eI eT eX w0 ms esd.
rewrite /st_mud_problem eo; cbn [rbind]; rewrite ro; cbn [rbind apply_weights].
by rewrite /qoi_map n1 n2 n3.
Qed.

(** Whatever the method: without measurements or without std_dev, TypeError. *)
Theorem C63_needs_measurements_and_sd s n p k t d lam se ti sm tm xm Is T X me dw sw kc :
  setup s n p k t d lam se ti -> (xm <> None -> Nd.shape se = [:: k; 2%N]) ->
  picked n sm = Ok Is -> picked t tm = Ok T -> picked k xm = Ok X -> (0 < size X * size T)%N ->
  s_meas s = None \/ s_sd s = None -> mud_problem s me dw sw kc sm tm xm = Err TypeError.
Proof.
move=> su sx eI eT eX w0 h; have [o [eo _ mo _ _]] := sample_data_rows su sx eI eT eX w0.
rewrite /st_mud_problem eo; cbn [rbind]; rewrite /residuals mo /pmeas.
by case: (s_meas s) h => [m|] //= [|->].
Qed.

(** ** C95: sample weights *)
(** C95: sample_weights (a vector) are handed over as they are: the problem built has exactly
    these weights and is otherwise the one built without them; a vector whose length is not
    the number of samples raises AssertionError. *)
Theorem C95_sample_weights s me dw kc sm tm xm w P0 :
  mud_problem s me dw None kc sm tm xm = Ok P0 ->
  mud_problem s me dw (Some (nd1 w)) kc sm tm xm =
    if size w == dim (dy P0) 0
    then Ok (DP (dX P0) (dy P0) (ddom P0) (d_int P0) [seq Fin x | x <- w] None None None None None None None None)
    else Err AssertionError.
Proof.
rewrite /st_mud_problem; case: (sample_data _ _ _ _) => [o|e] //; cbn [rbind].
case: (residuals _ _) => [r|e] //; cbn [rbind]; case: (apply_weights _ _ _) => [r'|e] //; cbn [rbind].
case: (qoi_map _ _ _ _ _ _) => [q|e] //; cbn [rbind]; rewrite /density_init.
case: (set_shape _ (sd_lam o)) => [X|e] //; cbn [rbind].
case: (set_shape _ q) => [y|e] //; cbn [rbind].
case: (match s_dom s with Some _ => _ | None => _ end) => [dm|e] //; cbn [rbind].
move=> [<-]; rewrite /set_weights /DensityModel.n_samples /=.
rewrite {1}/dim [nth _ _ _]/= [size w == _]eq_sym.
case: (dim y 0 =P size w) => e //=; rewrite /put_weights /=; congr (Ok (DP _ _ _ _ (map _ _) _ _ _ _ _ _ _ _)).
rewrite /weight_prod /rows /dim /= take_size.
apply: (@eq_from_nth _ 0); first by rewrite size_map size_iota.
by move=> i; rewrite size_map size_iota => hi; rewrite (nth_map 0%N) ?size_iota // nth_iota // big_seq1 add0n.
Qed.

(** ** C92: the PCA and SVD maps *)
(** Residuals as a matrix of n samples and the picked sensors and times. *)
Definition resid_mx s d t (Is X T : seq nat) (sd : R) : nd :=
  nd2 (size X * size T) [seq flatten [seq [seq resid s d t i x j sd | j <- T] | x <- X] | i <- Is].
(** The inner products of the rows of a with the first q rows of c. *)
Definition projections a c (K q : nat) : seq (seq R) :=
  [seq [seq \sum_(l < K) ent a i l * ent c b l | b <- iota 0 q] | i <- iota 0 (dim a 0)].

Lemma matmulTE a c (n K q : nat) : nd_wf a -> Nd.shape a = [:: n; K] -> nd_wf c -> Nd.shape c = [:: q; K] ->
  matmulT a c = Ok (nd2 q (projections a c K q)).
Proof.
move=> wa ha wc hc; rewrite /matmulT {1}/dim ha {1}/dim hc /= eqxx /= {1}/dim hc /=.
congr (Ok (nd2 _ _)); rewrite /projections (rows_of wa ha) (rows_of wc hc) -map_comp /dim ha /=.
apply/eq_map => i /=; rewrite -map_comp; apply/eq_map => b /=.
rewrite /row_of; have -> (l : seq nat) : zip [seq ent a i j | j <- l] [seq ent c b j | j <- l] =
    [seq (ent a i j, ent c b j) | j <- l] by elim: l => //= j l ->.
by rewrite big_map -[in LHS](subn0 K) big_mkord.
Qed.

Lemma resid_wf s d t Is X T sd : nd_wf (resid_mx s d t Is X T sd) /\
  Nd.shape (resid_mx s d t Is X T sd) = [:: size Is; (size X * size T)%N].
Proof.
rewrite /resid_mx /nd2 /nd_wf /= size_map; split=> //; rewrite /prodn /= muln1.
by apply/eqP; elim: Is => [//|i Is ih] /=; rewrite size_cat ih size_flatten_blocks mulSn.
Qed.

Lemma density_ok lam (rs : seq (seq R)) q p dom :
  Nd.shape lam = [:: size rs; p] -> Nd.shape dom = [:: p; 2%N] ->
  exists P, [/\ density_init D trunc lam (nd2 q rs) false (Some dom) false None false (10%:R^-1) = Ok P,
    dX P = lam, dy P = nd2 q rs, ddom P = dom & d_w P = nseq (size rs) (Fin 1)].
Proof.
move=> hl hdm; rewrite /density_init /set_shape /ndim hl hdm; cbn [size ltn leq rbind].
rewrite /= /guard; have -> : (dim dom 0 == dim lam 1) by rewrite /dim hl hdm.
have -> : size rs = dim lam 0 by rewrite /dim hl.
by eexists; split.
Qed.

Section Maps.
Variables (s : st) (n p k t : nat) (d lam se ti : nd) (sm tm xm : option mask) (Is T X : seq nat).
Variables (sd : R) (dom : nd).
Hypotheses (su : setup s n p k t d lam se ti) (sx : xm <> None -> Nd.shape se = [:: k; 2%N])
  (eI : picked n sm = Ok Is) (eT : picked t tm = Ok T) (eX : picked k xm = Ok X)
  (w0 : (0 < size X * size T)%N) (ms : s_meas s <> None) (esd : s_sd s = Some sd)
  (edm : s_dom s = Some dom) (hdm : Nd.shape dom = [:: p; 2%N]).

(** C92: with method "pca" the QoI of a sample are the inner products of its residuals with
    the q principal components (rows of c) sklearn returned for num_components. *)
Theorem C92_pca_map kc c q : pca_components (resid_mx s d t Is X T sd) kc = Ok c ->
  nd_wf c -> Nd.shape c = [:: q; (size X * size T)%N] ->
  exists P, [/\ mud_problem s "pca" None None kc sm tm xm = Ok P,
    rows (dX P) = [seq row_of lam p i | i <- Is], ddom P = dom,
    Nd.shape (dy P) = [:: size Is; q] &
    rows (dy P) = projections (resid_mx s d t Is X T sd) c (size X * size T) q].
Proof.
move=> ec wc hc; have [wr hr] := resid_wf s d t Is X T sd.
have [o [eo ro dd [wl hl] rl]] := residualsE su sx eI eT eX w0 ms esd.
rewrite /st_mud_problem eo; cbn [rbind]; rewrite ro; cbn [rbind apply_weights].
rewrite /qoi_map /= /pca -/(resid_mx s d t Is X T sd) /ndim hr /= ec /= (matmulTE wr hr wc hc) /= edm.
set rs := projections _ _ _ _.
have srs : size rs = size Is by rewrite /rs /projections size_map size_iota /dim hr.
rewrite -srs in hl; have [P [-> e1 e2 e3 _]] := density_ok q hl hdm.
exists P; rewrite e1 e2 e3; split=> //; first by rewrite /nd2 /= srs.
by rewrite rows_nd2 // /rs all_map; apply/allP => i _; rewrite /= size_map size_iota.
Qed.

(** C92: with method "svd", with the first num_components right singular vectors (rows of v;
    all of them if there are fewer, and a negative number counts from the end). *)
Theorem C92_svd_map kc v q : svd_v (resid_mx s d t Is X T sd) = Ok v ->
  nd_wf v -> Nd.shape v = [:: q; (size X * size T)%N] ->
  let q' := match kc with Posz m => minn m q | Negz m => (q - m.+1)%N end in
  exists P, [/\ mud_problem s "svd" None None kc sm tm xm = Ok P,
    rows (dX P) = [seq row_of lam p i | i <- Is], ddom P = dom,
    Nd.shape (dy P) = [:: size Is; q'] &
    rows (dy P) = projections (resid_mx s d t Is X T sd) v (size X * size T) q'].
Proof.
move=> ev wv hv q'; have [wr hr] := resid_wf s d t Is X T sd.
have [o [eo ro dd [wl hl] rl]] := residualsE su sx eI eT eX w0 ms esd.
rewrite /st_mud_problem eo; cbn [rbind]; rewrite ro; cbn [rbind apply_weights].
rewrite /qoi_map /= /svd -/(resid_mx s d t Is X T sd) /ndim hr /= ev /= edm.
have lt : all (fun i => (i < q)%N) (iota 0 q').
  apply/allP => i; rewrite mem_iota add0n => /= h; apply: leq_trans h _.
  by rewrite /q'; case: (kc) => m; rewrite ?geq_minr ?leq_subr.
have [h1 [h2 h3]] := take0_2d wv hv lt; rewrite size_iota in h1 h3.
have -> : first_rows v kc = take0 v (iota 0 q') by rewrite /first_rows /dim hv /q'; case: (kc).
rewrite (matmulTE wr hr h2 h1) /=; set rs := projections _ _ _ _.
have srs : size rs = size Is by rewrite /rs /projections size_map size_iota /dim hr.
rewrite -srs in hl; have [P [-> e1 e2 e3 _]] := density_ok q' hl hdm.
exists P; rewrite e1 e2 e3; split=> //; first by rewrite /nd2 /= srs.
rewrite rows_nd2; last by rewrite /rs all_map; apply/allP => i _; rewrite /= size_map size_iota.
apply/eq_map => i; apply/eq_in_map => b; rewrite mem_iota => /= hb; apply: eq_bigr => l _.
by rewrite h3 // nth_iota.
Qed.

(** ** C93: data weights *)
(** C93: data_weights must have one entry per sensor and time (of the whole problem):
    ValueError otherwise.  The normalised weights then multiply the samples, not the data
    points: with n picked samples and K weights, K <> n and neither one, ValueError... *)
Theorem C93_weights_errors me w sw kc :
  (size w <> (k * t)%N) \/ [/\ size Is <> (k * t)%N, size Is <> 1%N & (k * t)%N <> 1%N] ->
  mud_problem s me (Some w) sw kc sm tm xm = Err ValueError.
Proof.
move=> h; have [o [eo ro dd [wl hl] rl]] := residualsE su sx eI eT eX w0 ms esd.
rewrite /st_mud_problem eo; cbn [rbind]; rewrite ro; cbn [rbind]; rewrite /apply_weights.
case: su => -[ed el] [es et] _ [[ws [ns ds]] [wt ht]] _.
have nt : (0 < ndim ti)%N by rewrite /ndim; case: ht => ->.
have dt : dim ti 0 = t by rewrite /dim; case: ht => ->.
have sh b : (0 < ndim b)%N -> @shape0 R b = Ok (dim b 0) by move=> q; rewrite /shape0 eqn0Ngt q.
rewrite /n_sensors /n_ts es et; cbn [of_opt rbind]; rewrite (sh _ ns) (sh _ nt) ds dt; cbn [rbind].
rewrite /guard; case: eqP => [e|//]; cbn [rbind]; case: h => // -[/eqP n1 /eqP n2 /eqP n3].
set r := nd2 _ _; have dr : dim r 0 = size Is by rewrite /dim /= size_map.
by rewrite dr !size_map e eq_sym (negbTE n1) (negbTE n2) (negbTE n3).
Qed.

(** ... and with as many samples as weights, the QoI of sample i is multiplied by
    w_i / |w|. *)
Theorem C93_weights_scale_samples w kc : size w = (k * t)%N -> size Is = (k * t)%N ->
  exists P, [/\ mud_problem s "wme" (Some w) None kc sm tm xm = Ok P,
    rows (dX P) = [seq row_of lam p i | i <- Is] &
    dy P = Nd [:: size Is; 1%N]
      [seq nth 0 w i / norm2 w * wme_qoi s d t X T sd (size Is) (nth 0%N Is i) | i <- iota 0 (size Is)]].
Proof.
move=> sw sI; have [o [eo ro dd [wl hl] rl]] := residualsE su sx eI eT eX w0 ms esd.
rewrite /st_mud_problem eo; cbn [rbind]; rewrite ro; cbn [rbind]; rewrite /apply_weights.
case: su => -[ed el] [es et] _ [[ws [ns ds]] [wt ht]] _.
have nt : (0 < ndim ti)%N by rewrite /ndim; case: ht => ->.
have dt : dim ti 0 = t by rewrite /dim; case: ht => ->.
have sh b : (0 < ndim b)%N -> @shape0 R b = Ok (dim b 0) by move=> q; rewrite /shape0 eqn0Ngt q.
rewrite /n_sensors /n_ts es et; cbn [of_opt rbind]; rewrite (sh _ ns) (sh _ nt) ds dt; cbn [rbind].
rewrite /guard sw eqxx; cbn [rbind]; set r := nd2 _ _.
have dr0 : dim r 0 = size Is by rewrite /dim /= size_map.
have rr : rows r = [seq flatten [seq [seq resid s d t i x j sd | j <- T] | x <- X] | i <- Is].
  by rewrite /r rows_nd2 // all_map; apply/allP => i _; rewrite /= size_flatten_blocks.
have dr1 : dim r 1 = (size X * size T)%N by [].
rewrite dr0 dr1 size_map sw -sI eqxx rr; cbn [rbind].
rewrite /qoi_map String.eqb_refl; cbn [rbind]; set rs := [seq _ | _ <- zip _ _].
have rsE : rs = [seq [seq nth 0 w i / norm2 w * x | x <- flatten [seq [seq resid s d t (nth 0%N Is i) x j sd | j <- T] | x <- X]]
                | i <- iota 0 (size Is)].
  rewrite /rs; apply: (@eq_from_nth _ [::]).
    by rewrite !size_map size_zip !size_map sw sI minnn size_iota.
  rewrite size_map size_zip !size_map sw -sI minnn => i hi.
  rewrite (nth_map (0, [::])) ?size_zip ?size_map ?sw -?sI ?minnn // nth_zip ?size_map ?sw ?sI //.
  rewrite -sI [in RHS](nth_map 0%N) ?size_iota // nth_iota // add0n /=.
  by rewrite (nth_map 0) ?sw -?sI // (nth_map 0%N).
rewrite rows_nd2; last first.
  by rewrite rsE all_map; apply/allP => i _; rewrite /= size_map size_flatten_blocks.
set q := [seq _ / _ | _ <- _].
have qE : q = [seq nth 0 w i / norm2 w * wme_qoi s d t X T sd (size Is) (nth 0%N Is i) | i <- iota 0 (size Is)].
  rewrite /q rsE -map_comp dd; apply/eq_map => i /=; rewrite big_map -mulr_sumr -[LHS]mulrA; congr (_ * _).
  rewrite /wme_qoi big_flatten /= big_map.
  by congr (_ / _); apply: eq_bigr => x _; rewrite big_map.
rewrite /density_init edm /set_shape /ndim hl hdm; cbn [size ltn leq rbind].
rewrite qE /np_reshape /wild /known /fill /prodn /= size_map size_iota dvd1n divn1 /=.
rewrite /guard {1}/dim hdm {1}/dim hl /= eqxx /=.
by eexists; split.
Qed.
End Maps.
End Qoi.

Section Reference.
Variable R : rcfType.
Notation nd := (nd R).
Notation st := (st R).
Variables (G : Type) (reseed : int -> res G) (randn : nat -> G -> seq R * G).
Hypothesis size_randn : forall n g, size (randn n g).1 = n.
Implicit Types (s : st) (a : nd).
Notation mfr := (measurements_from_reference reseed randn).

(** ** C94: measurements_from_reference *)
(** The reference and the deviation in force: those passed, otherwise those stored. *)
Definition ref_of s (ref : option nd) : option (narr R) := if ref is Some a then Some (NArr a) else s_tv s.
Definition sd_of s (sd : option R) : option R := if sd is Some x then Some x else s_sd s.
(** The object once ref and std_dev are stored. *)
Definition stored s (ref : option nd) (sd : option R) : st :=
  ST (s_dom s) (s_lam s) (s_lref s) (s_data s) (s_meas s) (ref_of s ref) (s_dist s) (s_sens s)
     (s_times s) (sd_of s sd).

Lemma mfrE s g ref sd seed : mfr s g ref sd seed =
  match ref_of s ref, sd_of s sd with
  | Some (NArr tv), Some x =>
      let: (g', r) := add_noise reseed randn (nd1 (data tv)) x seed g in
      match r with
      | Err e => ((stored s ref sd, g'), Err e)
      | Ok y => let: (s', r') := set_meas (stored s ref sd) (Some (Nd (Nd.shape tv) (data y))) in ((s', g'), r')
      end
  | Some NObj, Some _ =>
      let: (g', r) := add_noise reseed randn (nd1 [:: 0]) 0 seed g in
      ((stored s ref sd, g'), if r is Err e then Err e else Err TypeError)
  | _, _ => ((stored s ref sd, g), Err AttributeError)
  end.
Proof. by case: s => *; case: ref => [a|]; case: sd. Qed.

(** C94: with a reference, a deviation, k sensors and t times: the measurements become the
    reference plus the deviation times standard normal draws (from the generator, reseeded
    if a seed is given), as a column; the reference and the deviation passed are stored, and
    nothing else changes. *)
Theorem C94_adds_noise s g ref sd seed a x k t g1 :
  ref_of s ref = Some (NArr a) -> sd_of s sd = Some x ->
  n_sensors s = Ok k -> n_ts s = Ok t -> size (data a) = (k * t)%N -> (0 < k * t)%N ->
  (if seed is Some q then reseed q else Ok g) = Ok g1 ->
  mfr s g ref sd seed =
    ((with_meas (stored s ref sd)
        (NArr (Nd [:: (k * t)%N; 1%N]
           [seq nth 0 (data a) i + nth 0 (randn (k * t)%N g1).1 i * x | i <- iota 0 (k * t)])),
      (randn (k * t)%N g1).2), Ok tt).
Proof.
move=> er es ek et sa kt eg; rewrite mfrE er es.
have sa0 : (0 < size (data a))%N by rewrite sa.
have [out [-> so no]] := C52_entries size_randn x sa0 eg.
rewrite /set_meas /meas_reshape /n_sensors /n_ts /=.
rewrite -/(n_sensors s) -/(n_ts s) ek et /= /np_reshape /wild /known /fill /prodn /= !muln1 so sa eqxx /=.
congr ((with_meas _ (NArr (Nd _ _)), _), _).
apply: (@eq_from_nth _ 0); first by rewrite size_map size_iota so.
by rewrite so sa => i hi; rewrite no ?sa // (nth_map 0%N) ?size_iota // nth_iota.
Qed.

(** C94: a reference whose size does not fit raises ValueError - after it has been stored as
    the true values, which no setter would have accepted. *)
Theorem C94_wrong_size s g a sd seed x k t g1 :
  sd_of s sd = Some x -> n_sensors s = Ok k -> n_ts s = Ok t ->
  (0 < size (data a))%N -> size (data a) <> (k * t)%N ->
  (if seed is Some q then reseed q else Ok g) = Ok g1 ->
  mfr s g (Some a) sd seed = ((stored s (Some a) sd, (randn (size (data a)) g1).2), Err ValueError) /\
  s_tv (stored s (Some a) sd) = Some (NArr a) /\ (set_tv s (Some a)).2 = Err ValueError.
Proof.
move=> es ek et sa0 sa eg; rewrite mfrE /ref_of es.
have [out [-> so no]] := C52_entries size_randn x sa0 eg.
have nr v (c : seq nat) : size v = size (data a) ->
    np_reshape [:: Some (k * t)%N; Some 1%N] (Nd c v) = Err ValueError :> res nd.
  by move=> e; rewrite /np_reshape /wild /known /fill /prodn /= !muln1 e eq_sym; case: eqP.
split; last split=> //.
  rewrite /set_meas /meas_reshape /n_sensors /n_ts /=.
  by rewrite -/(n_sensors s) -/(n_ts s) ek et /= nr.
by rewrite /set_tv /meas_reshape ek et /=; case: (a) nr => c v /= ->.
Qed.

(** C94: neither stored nor passed: AttributeError (what was passed is stored). *)
Theorem C94_missing s g ref sd seed : ref_of s ref = None \/ sd_of s sd = None ->
  mfr s g ref sd seed = ((stored s ref sd, g), Err AttributeError).
Proof. by move=> h; rewrite mfrE; case: (ref_of s ref) h => [[a|]|] //; case: (sd_of s sd) => // x []. Qed.

(** C94: with a seed the measurements do not depend on the generator. *)
Theorem C94_seeded s g g' ref sd q : 
  (mfr s g ref sd (Some q)).1.1 = (mfr s g' ref sd (Some q)).1.1 /\
  (mfr s g ref sd (Some q)).2 = (mfr s g' ref sd (Some q)).2.
Proof.
rewrite !mfrE; case: (ref_of s ref) => [[a|]|] //; case: (sd_of s sd) => [x|] //;
  rewrite /add_noise; case: (reseed q) => [g1|e] //.
Qed.
End Reference.
