(** * The same values in another frame: the functions (proofs only). *)

Require Import Reals ZArith Lra Lia List Bool.
From Flocq Require Import Core.
Require Import Verif.Num Verif.Types Verif.Priv Verif.OpsUni Verif.OpsAdd Verif.OpsSub Verif.OpsMul Verif.Const
  Verif.Validity Verif.Compare Verif.Func Verif.SpecCl Verif.SpecExp Verif.SpecFunc Verif.RealInst Verif.AlgTac Verif.AlgMul
  Verif.AlgFacts Verif.AlgSpec Verif.AlgThm Verif.FuncFacts Verif.FuncThm Verif.ExpFacts Verif.ExpThm Verif.LogThm Verif.SpecProg Verif.SpecAxes Verif.AxesFacts.
Local Open Scope R_scope.

Lemma null_not_exact : forall t (v : val R t), null t <> exact t v.
Proof. intros t v H. pose proof (isValid_null t) as N. rewrite H, isValid_exact in N. discriminate N. Qed.
Lemma invalid_not_exact : forall t x, isValid t x = false -> forall v : val R t, x <> exact t v.
Proof. intros t x N v H. rewrite H, isValid_exact in N. discriminate N. Qed.

(** The logarithm of a number spinor, case by case. *)
Lemma log_form : forall (V : Spinor R) (ref : BiVector R),
  let M := cnorm (den TSpin V) in let c := (1 / M) * sca_0 (spinSca V) in let D := scale TBiv (1 / M) (spinBiv V) in
  logG2 (exact TSpin V) (exact TBiv ref) =
  if Rltb deps M then
    if Rltb (1 - deps) c then exact TSpin (mkSpin (Sca (ln M)) zero_Biv)
    else if Rltb c (- (1 - deps)) then mkSpin (Sca (Some (ln M))) (mul_Dub_Biv c_turnHalf (direction TBiv (exact TBiv ref)))
    else mkSpin (Sca (Some (ln M))) (mul_Dub_Biv (Some (Ratan2 (cnorm (den TBiv D)) c)) (direction TBiv (exact TBiv D)))
  else null TSpin.
Proof.
  intros V ref M c D. unfold logG2.
  change (isValid_Spin (exact TSpin V)) with (isValid TSpin (exact TSpin V)). rewrite isValid_exact.
  rewrite magnitude_exact. fold M. cbv zeta. unfold lim_epsilon. rewrite lit1. fold deps.
  change (nltb (Some deps : xreal) (Some M)) with (Rltb deps M). destruct (Rltb deps M) eqn:HM; [|reflexivity].
  apply Rltb_spec in HM. pose proof deps_pos as Hd0.
  change (none_ : xreal) with (Some 1 : xreal). rewrite div_exact by lra.
  change (mul_Dub_Spin (Some (1 / M) : xreal) (exact TSpin V)) with (scale TSpin (Some (1 / M) : xreal) (exact TSpin V)).
  rewrite scale_exact.
  change (spinBiv (exact TSpin (scale TSpin (1 / M) V))) with (exact TBiv D).
  change (sca_0 (spinSca (exact TSpin (scale TSpin (1 / M) V)))) with (Some c).
  change (mlog (Some M : xreal)) with (xlog (Some M)). unfold xlog. rewrite (Rltb_true 0 M) by lra.
  change (nsub (Some 1 : xreal) (Some deps)) with (Some (1 - deps) : xreal).
  change (nopp (Some (1 - deps) : xreal)) with (Some (- (1 - deps)) : xreal).
  change (nltb (Some (1 - deps) : xreal) (Some c)) with (Rltb (1 - deps) c).
  change (nltb (Some c : xreal) (Some (- (1 - deps)))) with (Rltb c (- (1 - deps))).
  destruct (Rltb (1 - deps) c); [reflexivity|]. destruct (Rltb c (- (1 - deps))); [reflexivity|].
  unfold direction. rewrite pairMagDir_exact. reflexivity.
Qed.

(** The exponential of a multivector through its two commuting halves. *)
Definition expform (a t : R) (D E : clf) : clf :=
  let P := cnorm D in let N := cnorm E in let p := exp t in let n := exp (- t) in let I := cbasis bE123 in
  cscale (/ 2 * exp a) (cadd (cadd (cscale (p * cos P + n * cos N) cone) (cadd (cscale (p * Rsync P) D) (cscale (n * Rsync N) E)))
    (cadd (gp I (cadd (cscale (- (p * Rsync P)) D) (cscale (n * Rsync N) E))) (cscale (p * cos P - n * cos N) I))).
Definition halfP (m : MultiVector R) : clf := cadd (den TVec (mvVec m)) (gp (cbasis bE123) (den TBiv (mvBiv m))).
Definition halfN (m : MultiVector R) : clf := csub (den TVec (mvVec m)) (gp (cbasis bE123) (den TBiv (mvBiv m))).
Lemma exp_form : forall m, ceq (den TMvec (Rexp_Mvec m)) (expform (sca_0 (mvSca m)) (tri_0 (mvTri m)) (halfP m) (halfN m)).
Proof.
  intros m. unfold Rexp_Mvec, expform. cbv zeta.
  assert (P : sqrt ((vec_2 (mvVec m) - biv_2 (mvBiv m)) * (vec_2 (mvVec m) - biv_2 (mvBiv m)) +
    (vec_1 (mvVec m) + - biv_1 (mvBiv m)) * (vec_1 (mvVec m) + - biv_1 (mvBiv m)) +
    (vec_0 (mvVec m) - biv_0 (mvBiv m)) * (vec_0 (mvVec m) - biv_0 (mvBiv m))) = cnorm (halfP m)).
  { unfold cnorm. apply (f_equal sqrt). unfold halfP. clear. dvals. dring. }
  assert (N : sqrt ((vec_2 (mvVec m) + biv_2 (mvBiv m)) * (vec_2 (mvVec m) + biv_2 (mvBiv m)) +
    (vec_1 (mvVec m) - - biv_1 (mvBiv m)) * (vec_1 (mvVec m) - - biv_1 (mvBiv m)) +
    (vec_0 (mvVec m) + biv_0 (mvBiv m)) * (vec_0 (mvVec m) + biv_0 (mvBiv m))) = cnorm (halfN m)).
  { unfold cnorm. apply (f_equal sqrt). unfold halfN. clear. dvals. dring. }
  rewrite P, N. generalize (cnorm (halfP m)) (cnorm (halfN m)). intros p n. generalize (Rsync p) (Rsync n) (cos p) (cos n). intros sp sn cp cn.
  generalize (exp (tri_0 (mvTri m))) (exp (- tri_0 (mvTri m))) (exp (sca_0 (mvSca m))). intros e f g. unfold halfP, halfN. clear.
  dvals. intros k. dblade k; cbv -[Rplus Rminus Rmult Ropp Rinv R R0 R1 IZR]; ring.
Qed.

(** The comparison of arrays of three, away from the absolute test. *)
Lemma near_three : forall x y z u v w tol c d, dmin <= sqrt c -> c = u * u + v * v + w * w -> d = (x - u) * (x - u) + (y - v) * (y - v) + (z - w) * (z - w) ->
  nearlyEquals_arr (Some x :: Some y :: Some z :: nil : list xreal) (Some u :: Some v :: Some w :: nil : list xreal) tol = isSmallAbs (Some (sqrt (d / c)) : xreal) tol.
Proof.
  intros x y z u v w tol c d L Hc Hd. unfold nearlyEquals_arr.
  assert (Vv : forall p q r : R, isValid_arr (Some p :: Some q :: Some r :: nil : list xreal) = true) by (intros p q r; unfold isValid_arr; cbn [fold_left]; rewrite !isValid_x; reflexivity).
  rewrite !Vv. cbn [andb]. cbv zeta. unfold lim_min. rewrite lit1. fold dmin.
  assert (Ic : inner_product (Some u :: Some v :: Some w :: nil : list xreal) (Some u :: Some v :: Some w :: nil : list xreal) (nzero : xreal) = Some c).
  { rewrite Hc. cbn [inner_product]. cbv -[Rplus Rmult R R0 R1 IZR]. f_equal. ring. }
  assert (Id : sumSqDif (Some x :: Some y :: Some z :: nil : list xreal) (Some u :: Some v :: Some w :: nil : list xreal) (nzero : xreal) = Some d).
  { rewrite Hd. cbn [sumSqDif]. cbv -[Rplus Rmult Rminus R R0 R1 IZR]. f_equal. ring. }
  match goal with |- context [inner_product ?a ?b ?i] => change (inner_product a b i) with (inner_product (Some u :: Some v :: Some w :: nil : list xreal) (Some u :: Some v :: Some w :: nil : list xreal) (nzero : xreal)) end.
  match goal with |- context [sumSqDif ?a ?b ?i] => change (sumSqDif a b i) with (sumSqDif (Some x :: Some y :: Some z :: nil : list xreal) (Some u :: Some v :: Some w :: nil : list xreal) (nzero : xreal)) end.
  rewrite Ic, Id. assert (C0 : 0 < c). { apply Rnot_le_lt. intros N. rewrite (sqrt_neg_0 c N) in L. pose proof dmin_pos. lra. }
  rewrite sqrt_exact by lra. assert (T : nltb (Some (sqrt c) : xreal) (Some dmin) = false) by (apply Rltb_false; exact L).
  rewrite T, div_exact by lra. rewrite sqrt_exact; [reflexivity|]. apply Rle_mult_inv_pos; [|exact C0].
  rewrite Hd. pose proof (Rle_0_sqr (x - u)). pose proof (Rle_0_sqr (y - v)). pose proof (Rle_0_sqr (z - w)). unfold Rsqr in *. lra.
Qed.
Lemma near_vec : forall (g r : Vector R) tol, dmin <= cnorm (den TVec r) ->
  nearlyEquals_Vec (exact TVec g) (exact TVec r) tol = isSmallAbs (Some (sqrt (cnorm2 (csub (den TVec g) (den TVec r)) / cnorm2 (den TVec r))) : xreal) tol.
Proof. intros [[x y z]] [[u v w]] tol L. apply near_three; [exact L|dring|dring]. Qed.
Lemma near_biv : forall (g r : BiVector R) tol, dmin <= cnorm (den TBiv r) ->
  nearlyEquals_Biv (exact TBiv g) (exact TBiv r) tol = isSmallAbs (Some (sqrt (cnorm2 (csub (den TBiv g) (den TBiv r)) / cnorm2 (den TBiv r))) : xreal) tol.
Proof. intros [[x y z]] [[u v w]] tol L. apply near_three; [exact L|dring|dring]. Qed.

Section Unit.
Context (s : Spinor R) (Hs : magSq TSpin s = 1).
Lemma norm_seen : forall t (v v' : val R t), seen s t v v' -> cnorm (den t v') = cnorm (den t v).
Proof. intros t v v' H. rewrite (cnorm_ceq _ _ H). apply turn_norm, Hs. Qed.
Lemma norm2_seen : forall t (v v' : val R t), seen s t v v' -> cnorm2 (den t v') = cnorm2 (den t v).
Proof. intros t v v' H. rewrite (cnorm2_ceq _ _ H). apply turn_norm2, Hs. Qed.
Lemma seen_same : forall t (v v' : val R t), (t = TDub \/ t = TSca \/ t = TTri \/ t = TCplx) -> (seen s t v v' <-> v' = v).
Proof.
  intros t v v' K. split; intros H.
  - apply (seen_is s Hs) in H. rewrite H. destruct K as [->|[->|[->| ->]]]; reflexivity.
  - subst v'. pose proof (seen_turn s Hs t v) as T. destruct K as [->|[->|[->| ->]]]; exact T.
Qed.
Lemma seen_scale : forall t r (v v' : val R t), seen s t v v' -> seen s t (scale t r v) (scale t r v').
Proof.
  intros t r v v' H. unfold seen. eapply ceq_trans; [apply scale_den|]. eapply ceq_trans; [|apply ceq_sym, turn_ceq, scale_den].
  eapply ceq_trans; [|apply ceq_sym, turn_scale]. intros k. unfold cscale. rewrite (H k). reflexivity.
Qed.
Lemma result_exact : forall t (v v' : val R t), seen s t v v' -> seen_result s t (exact t v) (exact t v').
Proof. intros t v v' H. left. exists v, v'. auto. Qed.
Lemma result_null : forall t, seen_result s t (null t) (null t).
Proof. intros t. right. split; [reflexivity|]. intros v. apply null_not_exact. Qed.
Lemma magnitude_seen : forall t (v v' : val R t), seen s t v v' -> magnitude t (exact t v') = magnitude t (exact t v).
Proof. intros t v v' H. rewrite !magnitude_exact, (norm_seen t v v' H). reflexivity. Qed.
Lemma direction_seen : forall t (v v' : val R t), seen s t v v' -> seen_result s t (direction t (exact t v)) (direction t (exact t v')).
Proof.
  intros t v v' H. unfold direction. rewrite !pairMagDir_exact. cbn [snd]. rewrite (norm_seen t v v' H).
  destruct (Rltb tiny (cnorm (den t v))); [apply result_exact, seen_scale, H|apply result_null].
Qed.
Lemma ampSq_seen : forall t f (v v' : val R t), (ampSq t : option (val xreal t -> _)) = Some f -> seen s t v v' ->
  exists z, f (exact t v) = exact TCplx z /\ f (exact t v') = exact TCplx z.
Proof.
  intros t f v v' E H. destruct (ampSq_exact t f v E) as (z & Z1 & Z2). destruct (ampSq_exact t f v' E) as (z' & Z1' & Z2').
  exists z. split; [exact Z1|]. rewrite Z1'. f_equal.
  apply (seen_same TCplx z z'); [auto|]. unfold seen. eapply ceq_trans; [exact Z2'|]. eapply ceq_trans; [|apply ceq_sym, turn_ceq, Z2].
  eapply ceq_trans; [|apply turn_gp, Hs]. apply gp_ceq; [exact H|].
  eapply ceq_trans; [|apply turn_dir, Hs]. intros k. unfold cdir. rewrite (H k). reflexivity.
Qed.
Lemma amplitude_seen : forall t f (v v' : val R t), (amplitude t : option (val xreal t -> _)) = Some f -> seen s t v v' -> f (exact t v') = f (exact t v).
Proof.
  intros t f v v' E H. unfold amplitude in E. destruct (ampSq t) as [g|] eqn:G; [|discriminate E]. injection E as <-.
  destruct (ampSq_seen t g v v' G H) as (z & A & B). rewrite A, B. reflexivity.
Qed.
Lemma zero_seen : forall t (v v' : val R t), seen s t v v' -> magSq t v = 0 -> v' = v.
Proof.
  intros t v v' H Z. assert (Z' : magSq t v' = 0) by (rewrite magSq_den in Z |- *; rewrite (norm2_seen t v v' H); exact Z).
  apply magSq_zero_iff in Z. apply magSq_zero_iff in Z'. congruence.
Qed.
Lemma blade_inverse_seen : forall t inv (v v' : val R t), blade_inverse t = Some inv -> seen s t v v' -> seen_result s t (inv (exact t v)) (inv (exact t v')).
Proof.
  intros t inv v v' E H. destruct (Req_dec (magSq t v) 0) as [Z|Z].
  - rewrite (zero_seen t v v' H Z). right. split; [reflexivity|]. apply invalid_not_exact. apply magSq_zero_iff in Z. rewrite Z. apply (blade_inverse_zero t inv E).
  - rewrite !(blade_inverse_form t inv _ E). assert (M : magSq t v' = magSq t v) by (rewrite !magSq_den; apply norm2_seen, H).
    rewrite M, div_exact, !scale_exact by exact Z. apply result_exact, seen_scale. exact (seen_uni s Hs URev t v v' H).
Qed.
Lemma inverse_Cplx_seen : forall z z' : ComPlex R, seen s TCplx z z' -> seen_result s TCplx (inverse_Cplx (exact TCplx z)) (inverse_Cplx (exact TCplx z')).
Proof.
  intros z z' H. apply (seen_same TCplx) in H; [|auto]. subst z'. rewrite inverse_Cplx_exact.
  destruct (Rltb dmin (cnorm2 (den TCplx z))); [|apply result_null]. apply result_exact. apply seen_same; auto.
Qed.
Lemma inverse_Mvec_seen : forall m m' : MultiVector R, seen s TMvec m m' -> seen_result s TMvec (inverse_Mvec (exact TMvec m)) (inverse_Mvec (exact TMvec m')).
Proof.
  intros m m' H. destruct (ampSq_seen TMvec ampSq_Mvec m m' eq_refl H) as (a & A & A').
  pose proof (inverse_Cplx_exact a) as E. cbv zeta in E. destruct (Rltb dmin (cnorm2 (den TCplx a))).
  - set (z := mkCplx _ _) in E. assert (Q : forall n, ampSq_Mvec (exact TMvec n) = exact TCplx a -> inverse_Mvec (exact TMvec n) = exact TMvec (inv_mv z n)).
    { intros n An. unfold inverse_Mvec. rewrite An, E. clearbody z. clear. destruct z as [[[u]] [[v]]], n as [[[p]] [[x y w]] [[f g h]] [[q]]]. reflexivity. }
    rewrite (Q m A), (Q m' A'). apply result_exact. unfold seen.
    eapply ceq_trans; [apply inv_mv_den|]. eapply ceq_trans; [|apply ceq_sym, turn_ceq, inv_mv_den]. eapply ceq_trans; [|apply turn_gp, Hs].
    apply gp_ceq; [apply (proj2 (seen_same TCplx z z ltac:(auto))); reflexivity|].
    eapply ceq_trans; [|apply turn_dir, Hs]. intros k. unfold cdir. rewrite (H k). reflexivity.
  - assert (Q : forall n, ampSq_Mvec (exact TMvec n) = exact TCplx a -> inverse_Mvec (exact TMvec n) = mkMvec (Sca None) (Vec None None None) (Biv None None None) (Tri None)).
    { intros n An. unfold inverse_Mvec. rewrite An, E. clear. destruct n as [[[p]] [[x y w]] [[f g h]] [[q]]]. reflexivity. }
    right. rewrite (Q m A), (Q m' A'). split; [reflexivity|]. apply invalid_not_exact. reflexivity.
Qed.
Lemma rotor_seen : forall c q b b', seen s TBiv b b' -> seen s TSpin (rotor c q b) (rotor c q b').
Proof.
  intros c q b b' H. unfold seen. eapply ceq_trans; [apply rotor_den|]. eapply ceq_trans; [|apply ceq_sym, turn_ceq, rotor_den].
  eapply ceq_trans; [|apply ceq_sym, turn_add]. intros k. unfold cadd. rewrite (turn_scale s c cone k), (turn_scale s q (den TBiv b) k).
  unfold cscale. rewrite (turn_one s Hs k), (H k). reflexivity.
Qed.
Lemma zero_biv_seen : seen s TBiv (zero TBiv) (zero TBiv).
Proof.
  pose proof (seen_turn s Hs TBiv (zero TBiv)) as T.
  assert (Z : turn s TBiv (zero TBiv) = zero TBiv); [|rewrite Z in T; exact T].
  apply (zero_seen TBiv _ _ T). apply magSq_zero_iff. reflexivity.
Qed.
Lemma exp_Biv_seen : forall b b', seen s TBiv b b' -> exists r r', exp_Biv (exact TBiv b) = exact TSpin r /\ exp_Biv (exact TBiv b') = exact TSpin r' /\ seen s TSpin r r'.
Proof.
  intros b b' H. do 2 eexists. split; [apply exp_Biv_exact|]. split; [apply exp_Biv_exact|]. rewrite (norm_seen TBiv b b' H).
  destruct (Rltb tiny (cnorm (den TBiv b))); apply rotor_seen; [exact H|apply zero_biv_seen].
Qed.
Lemma spin_parts : forall v v' : Spinor R, seen s TSpin v v' <-> spinSca v' = spinSca v /\ seen s TBiv (spinBiv v) (spinBiv v').
Proof.
  intros v v'. split; intros H.
  - apply (seen_is s Hs) in H. subst v'. split; [reflexivity|]. exact (seen_turn s Hs TBiv (spinBiv v)).
  - destruct H as [A B]. apply (seen_is s Hs) in B. destruct v as [a b], v' as [a' b']. cbn [spinSca spinBiv] in *. subst. exact (seen_turn s Hs TSpin (mkSpin a b)).
Qed.
Lemma exp_Spin_seen : forall v v', seen s TSpin v v' -> exists r r', exp_Spin (exact TSpin v) = exact TSpin r /\ exp_Spin (exact TSpin v') = exact TSpin r' /\ seen s TSpin r r'.
Proof.
  intros v v' H. apply spin_parts in H. destruct H as [A B]. destruct (exp_Biv_seen _ _ B) as (r & r' & E & E' & K).
  do 2 eexists. split; [apply exp_Spin_exact, E|]. split; [apply exp_Spin_exact, E'|]. rewrite A. apply seen_scale, K.
Qed.

Lemma vec_part : forall m m' : MultiVector R, seen s TMvec m m' ->
  sca_0 (mvSca m') = sca_0 (mvSca m) /\ tri_0 (mvTri m') = tri_0 (mvTri m) /\ seen s TVec (mvVec m) (mvVec m') /\ seen s TBiv (mvBiv m) (mvBiv m').
Proof.
  intros m m' H. apply (seen_is s Hs) in H. subst m'. repeat split; [exact (seen_turn s Hs TVec (mvVec m))|exact (seen_turn s Hs TBiv (mvBiv m))].
Qed.
Lemma cnorm_of : forall a b, ceq b (cturn s a) -> cnorm b = cnorm a.
Proof. intros a b H. rewrite (cnorm_ceq _ _ H). apply turn_norm, Hs. Qed.
Lemma expform_turn : forall a t D E D' E', ceq D' (cturn s D) -> ceq E' (cturn s E) -> ceq (expform a t D' E') (cturn s (expform a t D E)).
Proof.
  intros a t D E D' E' HD HE. unfold expform. rewrite (cnorm_of _ _ HD), (cnorm_of _ _ HE). cbv zeta.
  generalize (exp t * cos (cnorm D) + exp (- t) * cos (cnorm E)) (exp t * Rsync (cnorm D)) (exp (- t) * Rsync (cnorm E)) (exp t * cos (cnorm D) - exp (- t) * cos (cnorm E)) (/ 2 * exp a).
  intros x y z w q.
  rewrite turn_scale, !turn_add, !turn_scale, <- (turn_gp s Hs), !turn_add, !turn_scale, (turn_one s Hs), (turn_I s Hs), <- HD, <- HE. reflexivity.
Qed.
Lemma exp_Mvec_seen : forall m m', seen s TMvec m m' -> exists r r', exp_Mvec (exact TMvec m) = exact TMvec r /\ exp_Mvec (exact TMvec m') = exact TMvec r' /\ seen s TMvec r r'.
Proof.
  intros m m' H. do 2 eexists. split; [apply exp_Mvec_exact|]. split; [apply exp_Mvec_exact|]. destruct (vec_part m m' H) as (A & B & V & W). unfold seen in *.
  eapply ceq_trans; [apply exp_form|]. eapply ceq_trans; [|apply ceq_sym, turn_ceq, exp_form]. rewrite A, B. apply expform_turn.
  - unfold halfP. rewrite turn_add, <- (turn_gp s Hs), (turn_I s Hs), V, W. reflexivity.
  - unfold halfN. rewrite turn_sub, <- (turn_gp s Hs), (turn_I s Hs), V, W. reflexivity.
Qed.

(** *** Logarithm and root *)
Lemma join_seen : forall (a th : R) (d d' : val xreal TBiv), seen_result s TBiv d d' ->
  d = null TBiv \/ (exists v, d = exact TBiv v) ->
  (exists w w', mkSpin (Sca (Some a)) (mul_Dub_Biv (Some th) d) = exact TSpin w /\ mkSpin (Sca (Some a)) (mul_Dub_Biv (Some th) d') = exact TSpin w' /\ seen s TSpin w w') \/
  (mkSpin (Sca (Some a)) (mul_Dub_Biv (Some th) d) = mkSpin (Sca (Some a)) (Biv None None None) /\ mkSpin (Sca (Some a)) (mul_Dub_Biv (Some th) d') = mkSpin (Sca (Some a)) (Biv None None None)).
Proof.
  intros a th d d' [(v & v' & -> & -> & H)|[<- N]] K.
  - left. exists (mkSpin (Sca a) (scale TBiv th v)), (mkSpin (Sca a) (scale TBiv th v')). split; [|split].
    + change (mul_Dub_Biv (Some th : xreal) (exact TBiv v)) with (scale TBiv (Some th : xreal) (exact TBiv v)). rewrite scale_exact. reflexivity.
    + change (mul_Dub_Biv (Some th : xreal) (exact TBiv v')) with (scale TBiv (Some th : xreal) (exact TBiv v')). rewrite scale_exact. reflexivity.
    + apply spin_parts. split; [reflexivity|]. apply seen_scale, H.
  - right. destruct K as [->|[v ->]]; [split; reflexivity|]. destruct (N v eq_refl).
Qed.
Lemma direction_shape : forall t (v : val R t), direction t (exact t v) = null t \/ exists w, direction t (exact t v) = exact t w.
Proof. intros t v. unfold direction. rewrite pairMagDir_exact. cbn [snd]. destruct (Rltb tiny _); [right; eexists; reflexivity|left; reflexivity]. Qed.
Lemma logG2_shape : forall V V' ref ref', seen s TSpin V V' -> seen s TBiv ref ref' ->
  let x := logG2 (exact TSpin V) (exact TBiv ref) in let x' := logG2 (exact TSpin V') (exact TBiv ref') in
  (exists w w', x = exact TSpin w /\ x' = exact TSpin w' /\ seen s TSpin w w') \/
  (x = null TSpin /\ x' = null TSpin) \/ (exists a, x = mkSpin (Sca (Some a)) (Biv None None None) /\ x' = mkSpin (Sca (Some a)) (Biv None None None)).
Proof.
  intros V V' ref ref' H K x x'. unfold x, x'. rewrite !log_form. rewrite (norm_seen TSpin V V' H). apply spin_parts in H. destruct H as [A B]. rewrite A.
  assert (N : seen s TBiv (scale TBiv (1 / cnorm (den TSpin V)) (spinBiv V)) (scale TBiv (1 / cnorm (den TSpin V)) (spinBiv V'))) by (apply seen_scale, B).
  rewrite (norm_seen TBiv _ _ N). destruct (Rltb deps (cnorm (den TSpin V))); [|right; left; split; reflexivity].
  destruct (Rltb (1 - deps) _).
  - left. do 2 eexists. split; [reflexivity|]. split; [reflexivity|]. apply spin_parts. split; [reflexivity|]. apply zero_biv_seen.
  - destruct (Rltb _ (- (1 - deps))).
    + rewrite turnHalf_exact. destruct (join_seen (ln (cnorm (den TSpin V))) pi53 _ _ (direction_seen TBiv ref ref' K) (direction_shape TBiv ref)) as [E|E]; [left; exact E|right; right; eexists; exact E].
    + match goal with |- context [Ratan2 ?y ?c] => destruct (join_seen (ln (cnorm (den TSpin V))) (Ratan2 y c) _ _ (direction_seen TBiv _ _ N) (direction_shape TBiv _)) as [E|E] end; [left; exact E|right; right; eexists; exact E].
Qed.
Lemma logG2_seen : forall V V' ref ref', seen s TSpin V V' -> seen s TBiv ref ref' ->
  seen_result s TSpin (logG2 (exact TSpin V) (exact TBiv ref)) (logG2 (exact TSpin V') (exact TBiv ref')).
Proof.
  intros V V' ref ref' H K. destruct (logG2_shape V V' ref ref' H K) as [E|[[E E']|[a [E E']]]]; [left; exact E|rewrite E, E'; apply result_null|].
  right. rewrite E, E'. split; [reflexivity|]. intros [x [[u v w]]] Q. discriminate Q.
Qed.
Lemma sqrtG2_seen : forall V V' ref ref', seen s TSpin V V' -> seen s TBiv ref ref' ->
  seen_result s TSpin (sqrtG2 (exact TSpin V) (exact TBiv ref)) (sqrtG2 (exact TSpin V') (exact TBiv ref')).
Proof.
  intros V V' ref ref' H K. unfold sqrtG2.
  change (isValid_Spin (exact TSpin V)) with (isValid TSpin (exact TSpin V)). change (isValid_Spin (exact TSpin V')) with (isValid TSpin (exact TSpin V')). rewrite !isValid_exact.
  rewrite (magnitude_seen TSpin V V' H). cbv zeta. destruct (nltb _ _).
  - change (zero_Spin : Spinor xreal) with (exact TSpin (zero TSpin)). apply result_exact. apply spin_parts. split; [reflexivity|]. apply zero_biv_seen.
  - destruct (logG2_shape V V' ref ref' H K) as [(w & w' & E & E' & W)|[[E E']|[a [E E']]]]; rewrite E, E'.
    + change (nlit 1 (-1) : xreal) with (Some (1 * bpow radix2 (-1)) : xreal).
      change (mul_Dub_Spin (Some (1 * bpow radix2 (-1)) : xreal)) with (scale TSpin (Some (1 * bpow radix2 (-1)) : xreal)). rewrite !scale_exact.
      destruct (exp_Spin_seen _ _ (seen_scale TSpin (1 * bpow radix2 (-1)) _ _ W)) as (r & r' & R1 & R2 & R3). rewrite R1, R2. apply result_exact, R3.
    + right. split; [reflexivity|]. apply invalid_not_exact. reflexivity.
    + right. split; [reflexivity|]. apply invalid_not_exact. reflexivity.
Qed.

(** *** Comparison *)
Lemma dif_seen : forall t (g g' r r' : val R t), seen s t g g' -> seen s t r r' -> cnorm2 (csub (den t g') (den t r')) = cnorm2 (csub (den t g) (den t r)).
Proof.
  intros t g g' r r' H K. rewrite <- (turn_norm2 s Hs (csub (den t g) (den t r))). apply cnorm2_ceq. rewrite turn_sub. intros k. unfold csub. rewrite (H k), (K k). reflexivity.
Qed.
Lemma near_seen : forall t (g g' r r' : val R t) tol, seen s t g g' -> seen s t r r' -> long_parts t r ->
  nearlyEquals t (exact t g') (exact t r') tol = nearlyEquals t (exact t g) (exact t r) tol.
Proof.
  assert (HV : forall (g g' r r' : Vector R) tol, seen s TVec g g' -> seen s TVec r r' -> dmin <= cnorm (den TVec r) ->
    nearlyEquals_Vec (exact TVec g') (exact TVec r') tol = nearlyEquals_Vec (exact TVec g) (exact TVec r) tol).
  { intros g g' r r' tol H K L. rewrite !near_vec; [|exact L|rewrite (norm_seen TVec r r' K); exact L]. rewrite (dif_seen TVec g g' r r' H K), (norm2_seen TVec r r' K). reflexivity. }
  assert (HB : forall (g g' r r' : BiVector R) tol, seen s TBiv g g' -> seen s TBiv r r' -> dmin <= cnorm (den TBiv r) ->
    nearlyEquals_Biv (exact TBiv g') (exact TBiv r') tol = nearlyEquals_Biv (exact TBiv g) (exact TBiv r) tol).
  { intros g g' r r' tol H K L. rewrite !near_biv; [|exact L|rewrite (norm_seen TBiv r r' K); exact L]. rewrite (dif_seen TBiv g g' r r' H K), (norm2_seen TBiv r r' K). reflexivity. }
  assert (SV : forall v, seen s TVec v (rotate s v)) by (intros v; exact (seen_turn s Hs TVec v)).
  assert (SB : forall v, seen s TBiv v (turnB s v)) by (intros v; exact (seen_turn s Hs TBiv v)).
  intros t g g' r r' tol H K L. pose proof (seen_is s Hs _ _ _ H) as EG. pose proof (seen_is s Hs _ _ _ K) as ER. subst g' r'. destruct t; cbn [turn long_parts nearlyEquals] in *; try reflexivity.
  - apply HV; auto.
  - apply HB; auto.
  - unfold nearlyEquals_Spin. f_equal. apply (HB (spinBiv g) _ (spinBiv r)); first [exact (SB _)|exact (SV _)|assumption].
  - unfold nearlyEquals_Imsp. f_equal. apply (HV (imspVec g) _ (imspVec r)); first [exact (SB _)|exact (SV _)|assumption].
  - destruct L. unfold nearlyEquals_Dplx. f_equal; [apply (HV (dplxVec g) _ (dplxVec r)); first [exact (SB _)|exact (SV _)|assumption]|apply (HB (dplxBiv g) _ (dplxBiv r)); first [exact (SB _)|exact (SV _)|assumption]].
  - destruct L. unfold nearlyEquals_Mvec. f_equal. f_equal; [f_equal|]; [apply (HV (mvVec g) _ (mvVec r)); first [exact (SB _)|exact (SV _)|assumption]|apply (HB (mvBiv g) _ (mvBiv r)); first [exact (SB _)|exact (SV _)|assumption]].
Qed.
End Unit.
