(** SpatioTemporalProblem: loading (C61), validation, the QoI map of mud_problem (C62, C63). *)
Set Warnings "-notation-overridden,-ambiguous-paths".
From mathcomp Require Import all_ssreflect all_algebra.
From Coq Require Import String.
From Verif Require Import Py Nd Xnum XnumProofs UtilModel DensityModel NdProofs UtilModel2 UtilProps
  StModel StProps StProps2 StProps3.
Set Implicit Arguments. Unset Strict Implicit. Unset Printing Implicit Defensive.
Import Order.Theory GRing.Theory Num.Theory.
Local Open Scope ring_scope.

Section Load.
Variable R : rcfType.
Notation nd := (nd R).
Notation st := (st R).
Notation dset := (dset R).
Implicit Types (s : st) (a d lam : nd) (ds : dset).

(** ** C61 *)
(** Assigning attributes one after the other: [ob.f = v]; the first exception ends it. *)
Fixpoint assign s (fvs : seq (string * pyv R)) : st * res unit :=
  match fvs with
  | [::] => (s, Ok tt)
  | (f, v) :: fvs' => match set_field s f v with
                      | (s', Ok _) => assign s' fvs'
                      | (s', Err e) => (s', Err e)
                      end
  end.

(** The fields a data set holds, in the order load takes them. *)
Definition present ds : seq (string * pyv R) :=
  pmap (fun f => omap (pair f) (lookup ds f))
    [:: "sample_dist"; "domain"; "sensors"; "times"; "lam_ref"; "std_dev"; "true_vals";
        "measurements"; "lam"; "data"]%string.

(** The default name arguments: each field is looked up under its own name. *)
Definition same_names : string -> nameval R := @NName R.

(** C61: load(ds) is exactly: assign the fields ds holds, in this order, stopping at the
    first exception (what was assigned before stays). *)
Theorem C61_load_assigns_in_order s ds : load s ds same_names = assign s (present ds).
Proof.
rewrite /load /present -/(fields); elim: fields s => [//|f fs ih] s /=.
rewrite /get_set_val /same_names; case: (lookup ds f) => [v|] /=; last by rewrite -ih.
by case: (set_field s f v) => s' [[]|e] //=; rewrite -ih.
Qed.

(** Exceptions do not undo: the object after a failing load is the one after the fields that
    went well, followed by the failing assignment, which (being a single setter) changes
    nothing. *)
Theorem C61_failed_load_keeps_prefix s ds e : (load s ds same_names).2 = Err e ->
  exists pre f v post, [/\ present ds = pre ++ (f, v) :: post,
    (assign s pre).2 = Ok tt, (set_field (assign s pre).1 f v).2 = Err e &
    (load s ds same_names).1 = (set_field (assign s pre).1 f v).1].
Proof.
rewrite C61_load_assigns_in_order; elim: (present ds) s => [//|[f v] l ih] s /=.
case ef: (set_field s f v) => [s' [[]|e']] /=.
  move=> /ih [pre [f' [v' [post [-> h1 h2 h3]]]]].
  by exists ((f, v) :: pre), f', v', post; rewrite /= ef.
by move=> [<-]; exists [::], f, v, l; rewrite /= ef.
Qed.

(** The order of the entries of ds, and entries under other names, do not matter. *)
Theorem C61_only_the_fields_matter s ds ds' :
  (forall f, List.In f [:: "sample_dist"; "domain"; "sensors"; "times"; "lam_ref"; "std_dev"; "true_vals";
        "measurements"; "lam"; "data"]%string -> lookup ds f = lookup ds' f) ->
  load s ds same_names = load s ds' same_names.
Proof.
move=> h; rewrite !C61_load_assigns_in_order; congr assign; rewrite /present.
move: h; set l := [:: _; _; _; _; _; _; _; _; _; _]; elim: l => [//|f fs ih] /= h.
rewrite h; last by left.
by rewrite ih // => g hg; apply: h; right.
Qed.

(** C61, names given by the caller: the field f, looked up under the name k, is assigned the
    entry k only if ds also holds an entry called f (KeyError if there is none called k);
    without an entry called f the name is silently ignored. *)
Theorem C61_renamed ds s f k :
  get_set_val ds s f (NName R k) =
    match lookup ds f, lookup ds k with
    | None, _ => (s, Ok tt)
    | Some _, Some v => set_field s f v
    | Some _, None => (s, Err KeyError)
    end.
Proof. by rewrite /get_set_val; case: (lookup ds f). Qed.

(** A complete, consistent data set: everything is stored. *)
Definition complete ds (x : string) d se ti lr (sd : R) tv m lam dat : Prop :=
  [/\ lookup ds "sample_dist" = Some (VStr R x) /\ lookup ds "domain" = Some (VArr d),
      lookup ds "sensors" = Some (VArr se) /\ lookup ds "times" = Some (VArr ti),
      lookup ds "lam_ref" = Some (VArr lr) /\ lookup ds "std_dev" = Some (VNum sd),
      lookup ds "true_vals" = Some (VArr tv) /\ lookup ds "measurements" = Some (VArr m) &
      lookup ds "lam" = Some (VArr lam) /\ lookup ds "data" = Some (VArr dat)].

Theorem C61_complete_load ds x n p k t d se ti lr sd tv m lam dat :
  complete ds x d se ti lr sd tv m lam dat ->
  x = "u"%string \/ x = "n"%string ->
  nd_wf d -> Nd.shape d = [:: p; 2%N] ->
  (0 < ndim se)%N -> dim se 0 = k -> (0 < ndim ti)%N -> dim ti 0 = t ->
  size (data lr) = p -> (forall i, (i < p)%N -> ent d i 0 <= nth 0 (data lr) i <= ent d i 1) ->
  size (data tv) = (k * t)%N -> size (data m) = (k * t)%N ->
  nd_wf lam -> Nd.shape lam = [:: n; p] -> nd_wf dat -> Nd.shape dat = [:: n; (k * t)%N] ->
  load (st0 R) ds same_names =
    (ST (Some d) (Some lam) (Some (data lr)) (Some dat)
        (Some (NArr (Nd [:: (k * t)%N; 1%N] (data m)))) (Some (NArr (Nd [:: (k * t)%N; 1%N] (data tv))))
        (Some x) (Some se) (Some ti) (Some sd), Ok tt).
Proof.
case=> -[e1 e2] [e3 e4] [e5 e6] [e7 e8] [e9 e10] hx wd hd ns ds_ nt dt slr inl stv sm wl hl wa ha.
rewrite C61_load_assigns_in_order /present.
rewrite [pmap _ _]/= e1 e2 e3 e4 e5 e6 e7 e8 e9 e10; cbn [omap obind oapp pmap].
cbn [assign]; rewrite /set_field /=.
have -> : set_dist (st0 R) x = (with_dist (st0 R) x, Ok tt) by rewrite /set_dist; case: hx => ->.
have dw : dom_wf d by rewrite /dom_wf wd hd /dim hd /= eqxx.
rewrite /set_domain (reshape2_id dw) /=.
set s1 := with_times _ _.
have -> : set_lref s1 lr = (with_lref s1 (data lr), Ok tt).
  have [c1 c2 _ _ _] := C57_accepts_iff s1 lr.
  have e : (set_lref s1 lr).2 = Ok tt.
    by apply/c1; exists d; rewrite slr; split=> //; rewrite /dim hd.
  by rewrite [LHS]surjective_pairing e c2.
have sh b : (0 < ndim b)%N -> @shape0 R b = Ok (dim b 0) by move=> q; rewrite /shape0 eqn0Ngt q.
have rs (a : nd) : size (data a) = (k * t)%N ->
   np_reshape [:: Some (k * t)%N; Some 1%N] a = Ok (Nd [:: (k * t)%N; 1%N] (data a)).
  by move=> e; rewrite /np_reshape /wild /known /fill /prodn /= !muln1 e eqxx.
rewrite /set_tv /meas_reshape /n_sensors /n_ts /= !sh //= ds_ dt rs //=.
rewrite /set_meas /meas_reshape /n_sensors /n_ts /= !sh //= ds_ dt rs //=.
rewrite (@C56_lam_with_domain _ _ lam d) //; last by rewrite /arr_ok wl /ndim hl.
have c2l : col2 lam = lam by rewrite /col2 /ndim hl.
rewrite c2l {1}/dim hl /= {1}/dim hd /= eqxx.
have d2 : data_2d dat = Ok dat by rewrite /data_2d /ndim ha.
rewrite (set_dataE _ d2) /= !sh //= ds_ dt {1}/dim ha /= mulnC eqxx.
by [].
Qed.

Lemma set_field_frame s f v : f <> "sensors"%string -> f <> "times"%string -> f <> "data"%string ->
  s_sens (set_field s f v).1 = s_sens s /\ s_times (set_field s f v).1 = s_times s.
Proof.
move=> /String.eqb_neq n1 /String.eqb_neq n2 /String.eqb_neq n3.
have K o : keeps_data o -> s_sens (srun1 (fun _ => Ok tt) (fun _ g => ([::], g)) (s, tt) o).1.1 = s_sens s /\
                           s_times (srun1 (fun _ => Ok tt) (fun _ g => ([::], g)) (s, tt) o).1.1 = s_times s.
  by move=> k; have [_ ? ?] := keeps_data1 (fun _ => Ok tt) (fun _ g => ([::], g)) (s, tt) k.
rewrite /set_field n1 n2 n3.
case: ifP => _; first by case: v => [|a|x|x] //; apply: (K (SDist _ x)).
case: ifP => _; first by case: v => [|a|x|x] //; apply: (K (SDomain a)).
case: ifP => _.
  case: v => [|a|x|x]; [|exact: (K (SLref a))|exact: (K (SLref (nd0 x)))|];
    by case: (s_dom s) => [dd|] //; case: ifP.
case: ifP => _; first by case: v.
case: ifP => _.
  case: v => [|a|x|x] //; [|exact: (K (STv a))|exact: (K (STv (nd0 x)))].
  by rewrite /set_tv; case: (meas_reshape _ _).
case: ifP => _.
  case: v => [|a|x|x] //; [|exact: (K (SMeas a))|exact: (K (SMeas (nd0 x)))].
  by rewrite /set_meas; case: (meas_reshape _ _).
by case: ifP => _ //; case: v => [|a|x|x]; try exact: (K (SLam a)); case: (s_dom s).
Qed.

(** C61: a data set with measurements or true values but without sensors (or without times)
    cannot be loaded into an object that has none (for instance a fresh one). *)
Theorem C61_measurements_need_sensors_and_times s ds :
  (s_sens s = None /\ lookup ds "sensors" = None) \/ (s_times s = None /\ lookup ds "times" = None) ->
  axis_ok (s_sens s) ->
  (forall a, lookup ds "sensors" = Some (VArr a) -> (0 < ndim a)%N) ->
  (exists a, lookup ds "measurements" = Some (VArr a)) \/ (exists a, lookup ds "true_vals" = Some (VArr a)) ->
  (load s ds same_names).2 <> Ok tt.
Proof.
move=> none axs axd vals.
pose P s' := ((s_sens s' = None /\ lookup ds "sensors" = None) \/
              (s_times s' = None /\ lookup ds "times" = None)) /\ axis_ok (s_sens s').
have sk s' : P s' -> forall a, meas_reshape s' (Some a) = Err AttributeError.
  move=> [h ax] a; rewrite /meas_reshape /n_sensors /n_ts.
  case: (s_sens s') h ax => [se|] h ax //=; rewrite /axis_ok in ax; rewrite /shape0 eqn0Ngt ax /=.
  by case: (s_times s') h => [ti|] [] // [].
have step f s' : f <> "data"%string -> P s' -> P (get_set_val ds s' f (same_names f)).1.
  move=> nd [h ax]; rewrite C61_renamed; case el: (lookup ds f) => [v|] //.
  case e1: (f =? "sensors")%string.
    move/String.eqb_eq: e1 => e1; subst f; case: h => -[h1 h2]; first by rewrite h2 in el.
    have Pk : P s' by split=> //; right.
    case: v el => [|a|x|x] el; [by split=> //=; right| |exact: Pk|exact: Pk].
    by split; [right|apply: axd el].
  case e2: (f =? "times")%string.
    move/String.eqb_eq: e2 => e2; subst f; case: h => -[h1 h2]; last by rewrite h2 in el.
    by case: v el => [|a|x|x] el //; split=> //=; left.
  move/String.eqb_neq: e1 => e1; move/String.eqb_neq: e2 => e2.
  by have [i1 i2] := set_field_frame s' v e1 e2 nd; rewrite /P i1 i2.
have L pre g post s' : ~ List.In "data"%string pre -> P s' ->
    (exists a, lookup ds g = Some (VArr a)) -> g = "measurements"%string \/ g = "true_vals"%string ->
    (load_loop ds same_names (pre ++ g :: post) s').2 <> Ok tt.
  elim: pre s' => [|f pre ih] s' nd Ps [a ea] hg; rewrite [_ ++ _]/= /load_loop -/load_loop.
    rewrite C61_renamed ea; case: hg => -> /=.
      by rewrite /set_field /= /set_meas (sk _ Ps).
    by rewrite /set_field /= /set_tv (sk _ Ps).
  have nf : f <> "data"%string by move=> e; apply: nd; left.
  have np : ~ List.In "data"%string pre by move=> e; apply: nd; right.
  have := step f s' nf Ps; case: (get_set_val _ _ _ _) => s'' [u|e] //= Ps'.
  by apply: ih => //; exists a.
have P0 : P s by [].
case: vals => vals.
- apply: (L [:: "sample_dist"; "domain"; "sensors"; "times"; "lam_ref"; "std_dev"; "true_vals"]%string
            "measurements"%string [:: "lam"; "data"]%string) => //; last by left.
  by do 7 (case=> //).
- apply: (L [:: "sample_dist"; "domain"; "sensors"; "times"; "lam_ref"; "std_dev"]%string
            "true_vals"%string [:: "measurements"; "lam"; "data"]%string) => //; last by right.
  by do 6 (case=> //).
Qed.

(** validate: with its defaults, ValueError exactly when domain, lam, data or (if asked for)
    measurements are missing; asking for the true values always raises AttributeError. *)
Theorem C91_validate s cm :
  [/\ validate s cm false = Ok tt <->
        [/\ s_dom s <> None, s_lam s <> None, s_data s <> None & cm -> s_meas s <> None],
      validate s cm false = Ok tt \/ validate s cm false = Err ValueError &
      validate s cm true = Err AttributeError].
Proof.
rewrite /validate /guard; split=> //; last by case: ifP; [left|right].
case: (s_dom s) => [?|]; case: (s_lam s) => [?|]; case: (s_data s) => [?|]; case: (s_meas s) => [?|];
  case: cm => /=; split=> //; try (by case).
by case=> _ _ _ /(_ isT).
Qed.
End Load.

Section Qoi.
Variable R : rcfType.
Notation nd := (nd R).
Notation st := (st R).
Implicit Types (s : st) (a d lam : nd).
Variables (D : Type) (trunc : R -> R).
Variables (pca_components : nd -> int -> res nd) (svd_v : nd -> res nd).
Notation mud_problem := (st_mud_problem D trunc pca_components svd_v).

(** The residual of sample i at sensor x, time j. *)
Definition resid s d (t i x j : nat) (sd : R) : R := (meas_at s t x j - ent d i (x * t + j)) / sd.

Lemma zip_blocks_div (F H : nat -> nat -> R) (X T : seq nat) c :
  [seq (q.1 - q.2) / c | q <- zip (flatten [seq [seq F x j | j <- T] | x <- X])
                            (flatten [seq [seq H x j | j <- T] | x <- X])] =
  flatten [seq [seq (F x j - H x j) / c | j <- T] | x <- X].
Proof.
elim: X => [//|x X ih] /=; rewrite zip_cat ?size_map // map_cat ih; congr (_ ++ _).
by elim: T {ih} => [//|j T ih] /=; rewrite ih.
Qed.

(** ** C62: the weighted mean error *)
(** What the residuals are, for a problem set up with measurements and a standard deviation. *)
Lemma residualsE s n p k t d lam se ti sm tm xm Is T X sd :
  setup s n p k t d lam se ti -> (xm <> None -> Nd.shape se = [:: k; 2%N]) ->
  picked n sm = Ok Is -> picked t tm = Ok T -> picked k xm = Ok X -> (0 < size X * size T)%N ->
  s_meas s <> None -> s_sd s = Some sd ->
  exists o, [/\ sample_data s sm tm xm = Ok o,
    residuals o (s_sd s) = Ok (nd2 (size X * size T)
      [seq flatten [seq [seq resid s d t i x j sd | j <- T] | x <- X] | i <- Is]),
    dim (sd_data o) 0 = size Is, nd_wf (sd_lam o) /\ Nd.shape (sd_lam o) = [:: size Is; p] &
    rows (sd_lam o) = [seq row_of lam p i | i <- Is]].
Proof.
move=> su sx eI eT eX w0 ms esd.
have [o [eo ro mo [dl dd] lo]] := sample_data_rows su sx eI eT eX w0.
have aX := picked_lt eX; have aI := picked_lt eI; have aT := picked_lt eT.
have em : pmeas s t X T = Some (flatten [seq [seq meas_at s t x j | j <- T] | x <- X]).
  by rewrite /pmeas; case: (s_meas s) ms.
have hd : Nd.shape d = [:: n; (k * t)%N] by case: su => _ _ [[]].
exists o; rewrite eo; split=> //.
- rewrite /residuals mo em esd; cbn [of_opt rbind]; rewrite size_flatten_blocks ro -map_comp.
  congr (Ok (nd2 _ _)); apply/eq_in_map => i /(allP aI) hi /=.
  by rewrite (prowE hd hi aX aT) zip_blocks_div.
- have := C59_sample_data sm tm su sx; rewrite eI eT eX eqn0Ngt w0 => -[o' [eo' [h _] _ _ _]].
  by move: eo'; rewrite eo => -[->].
- apply: (@eq_from_nth _ [::]); first by rewrite size_rows size_map.
  by rewrite size_rows dl => i hi; rewrite lo // (nth_map 0%N).
Qed.

(** C62: with method "wme" and no data weights, the problem built has the picked samples, the
    stored domain and, for sample i, the one QoI
    (sum over picked sensors and times of (measurement - data) / std_dev) / sqrt(#samples). *)
Definition wme_qoi s d t (X T : seq nat) (sd : R) (nsamp i : nat) : R :=
  (\sum_(x <- X) \sum_(j <- T) (meas_at s t x j - ent d i (x * t + j)) / sd) / Num.sqrt nsamp%:R.

Theorem C62_wme_map s n p k t d lam se ti sm tm xm Is T X sd dom kc :
  setup s n p k t d lam se ti -> (xm <> None -> Nd.shape se = [:: k; 2%N]) ->
  picked n sm = Ok Is -> picked t tm = Ok T -> picked k xm = Ok X -> (0 < size X * size T)%N ->
  s_meas s <> None -> s_sd s = Some sd -> sd <> 0 ->
  s_dom s = Some dom -> Nd.shape dom = [:: p; 2%N] ->
  exists P, [/\ mud_problem s "wme" None None kc sm tm xm = Ok P,
    rows (dX P) = [seq row_of lam p i | i <- Is],
    dy P = Nd [:: size Is; 1%N] [seq wme_qoi s d t X T sd (size Is) i | i <- Is],
    ddom P = dom & d_w P = nseq (size Is) (Fin 1)].
Proof.
move=> su sx eI eT eX w0 ms esd sd0 ed hdm.
have [o [eo ro dd [wl hl] rl]] := residualsE su sx eI eT eX w0 ms esd.
rewrite /st_mud_problem eo; cbn [rbind]; rewrite ro; cbn [rbind apply_weights].
rewrite /qoi_map String.eqb_refl; cbn [rbind].
rewrite rows_nd2; last by rewrite all_map; apply/allP => i _; rewrite /= size_flatten_blocks.
set q := [seq _ / _ | _ <- _].
have qE : q = [seq wme_qoi s d t X T sd (size Is) i | i <- Is].
  rewrite /q -map_comp dd; apply/eq_map => i /=; rewrite /wme_qoi big_flatten /= big_map.
  by congr (_ / _); apply: eq_bigr => x _; rewrite big_map.
rewrite /density_init ed /set_shape /ndim hl hdm; cbn [size ltn leq rbind].
rewrite qE /np_reshape /wild /known /fill /prodn /= size_map dvd1n divn1 /=.
rewrite /guard {1}/dim hdm {1}/dim hl /= eqxx /=.
by eexists; split; first by []; rewrite //= /dim hl.
Qed.
End Qoi.
