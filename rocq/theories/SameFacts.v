(** * Signs of zeros, tolerances: proofs. *)

Require Import Reals ZArith List Bool Lra Lia.
From Flocq Require Import Core BinarySingleNaN.
Require Import Verif.Num Verif.Types Verif.Priv Verif.OpsUni Verif.OpsAdd Verif.OpsSub
  Verif.OpsMul Verif.Const Verif.Validity Verif.Compare Verif.Func Verif.SpecCl Verif.RealInst Verif.AlgTac Verif.Rel Verif.B64 Verif.B64Facts
  Verif.SpecValid Verif.ValidFacts Verif.SpecCompare Verif.SpecSame Verif.CompareFacts Verif.ArrFacts Verif.CompareThm.
Import ListNotations.
Local Open Scope R_scope.

(** The same double, or two zeros. *)
Inductive zr : f64 -> f64 -> Prop :=
  | zr_refl : forall x, zr x x
  | zr_zero : forall s s', zr (B754_zero s) (B754_zero s').

Lemma zr_sym : forall x y, zr x y -> zr y x.
Proof. intros x y []; constructor. Qed.
Lemma zr_opp : forall x y, zr x y -> zr (Bopp x) (Bopp y).
Proof. intros x y []; constructor. Qed.
Lemma zr_abs : forall x y, zr x y -> Babs x = Babs y.
Proof. intros x y []; reflexivity. Qed.
Lemma zr_add : forall a b c d, zr a c -> zr b d -> zr (@nadd f64 _ a b) (nadd c d).
Proof.
  intros a b c d [x|s s'] [y|p p']; [constructor| | |].
  - destruct x as [[]|[]| |s m e H], p, p'; constructor.
  - destruct y as [[]|[]| |q m e H], s, s'; constructor.
  - destruct s, s', p, p'; constructor.
Qed.
Lemma zr_sub : forall a b c d, zr a c -> zr b d -> zr (@nsub f64 _ a b) (nsub c d).
Proof.
  intros a b c d [x|s s'] [y|p p']; [constructor| | |].
  - destruct x as [[]|[]| |s m e H], p, p'; constructor.
  - destruct y as [[]|[]| |q m e H], s, s'; constructor.
  - destruct s, s', p, p'; constructor.
Qed.
Lemma zr_mul : forall a b c d, zr a c -> zr b d -> zr (@nmul f64 _ a b) (nmul c d).
Proof.
  intros a b c d [x|s s'] [y|p p']; [constructor| | |].
  - destruct x as [[]|[]| |s m e H], p, p'; constructor.
  - destruct y as [[]|[]| |q m e H], s, s'; constructor.
  - destruct s, s', p, p'; constructor.
Qed.
Lemma zr_div : forall a b c d, zr a c -> b = d -> zr (@ndiv f64 _ a b) (ndiv c d).
Proof.
  intros a b c d [x|s s'] <-; [constructor|].
  destruct b as [[]|[]| |q m e H], s, s'; constructor.
Qed.
Lemma zr_sqrt : forall a b, zr a b -> zr (@nsqrt f64 _ a) (nsqrt b).
Proof. intros a b []; constructor. Qed.
Lemma zr_ltb_l : forall a b t, zr a b -> Bltb a t = Bltb b t.
Proof. intros a b t [x|s s']; [reflexivity|]. destruct s, s', t as [[]|[]| |[] m e H]; reflexivity. Qed.
Lemma zr_valid : forall a b, zr a b -> isValid_Dub a = isValid_Dub b.
Proof. intros a b [x|s s']; [reflexivity|]. destruct s, s'; vm_compute; reflexivity. Qed.
Lemma zr_nonzero : forall a b, zr a b -> b2r a <> 0 -> a = b.
Proof. intros a b [x|s s'] H; [reflexivity|]. elim H; reflexivity. Qed.

Lemma zr_ring : ring_rel Ring0_B Ring0_B zr.
Proof.
  constructor; [constructor|constructor|exact zr_add|exact zr_sub|exact zr_mul|exact zr_opp].
Qed.
Lemma zr_spec : forall a b, zr a b <-> (a = b \/ exists s s', a = B754_zero s /\ b = B754_zero s').
Proof.
  intros a b. split.
  - intros [x|s s']; [left; reflexivity|right; exists s, s'; split; reflexivity].
  - intros [->|(s & s' & -> & ->)]; constructor.
Qed.

(** ** Comparison *)
Lemma small_zr : forall a b t, zr a b -> isSmallAbs a t = isSmallAbs b t.
Proof. intros a b t H. unfold isSmallAbs. change (@nabs f64 _) with (Babs (prec := 53) (emax := 1024)). rewrite (zr_abs _ _ H). reflexivity. Qed.
Lemma smalldiff_zr : forall a b c d t, zr a c -> zr b d -> isSmallAbsDiff a b t = isSmallAbsDiff c d t.
Proof. intros. unfold isSmallAbsDiff. apply small_zr, zr_sub; assumption. Qed.
Lemma both_zr : forall a b c d, zr a c -> zr b d -> bothAreValid a b = bothAreValid c d.
Proof. intros a b c d A B. unfold bothAreValid. rewrite (zr_valid _ _ A), (zr_valid _ _ B). reflexivity. Qed.
Lemma abs_zr : forall a b c d t, zr a c -> zr b d -> nearlyEqualsAbs a b t = nearlyEqualsAbs c d t.
Proof. intros a b c d t A B. unfold nearlyEqualsAbs. rewrite (both_zr _ _ _ _ A B), (smalldiff_zr _ _ _ _ t A B). reflexivity. Qed.
Lemma rel_zr : forall a b c d t, zr a c -> zr b d -> nearlyEqualsRel a b t = nearlyEqualsRel c d t.
Proof.
  intros a b c d t A B. unfold nearlyEqualsRel. rewrite (both_zr _ _ _ _ A B), (smalldiff_zr _ _ _ _ t A B).
  destruct B as [y|p p'].
  - rewrite (smalldiff_zr _ _ _ none_ t (zr_div _ _ _ _ A (eq_refl y)) (zr_refl _)). reflexivity.
  - assert (L : forall s, @nltb f64 _ (nabs (B754_zero s : f64)) tolToZero = true) by (intros []; vm_compute; reflexivity).
    rewrite (L p), (L p'). reflexivity.
Qed.
Lemma inner_zr : forall a b c d i j, Forall2 zr a c -> Forall2 zr b d -> zr i j ->
  zr (inner_product a b i) (inner_product c d j).
Proof.
  intros a b c d i j A. revert b d i j. induction A as [|x y a c H A IH]; intros b d i j B Z; [exact Z|].
  destruct B as [|u v b d K B]; [exact Z|]. cbn [inner_product]. apply IH; [exact B|]. apply zr_add; [exact Z|]. apply zr_mul; assumption.
Qed.
Lemma sumsq_zr : forall a b c d i j, Forall2 zr a c -> Forall2 zr b d -> zr i j -> zr (sumSqDif a b i) (sumSqDif c d j).
Proof.
  intros a b c d i j A. revert b d i j. induction A as [|x y a c H A IH]; intros b d i j B Z; [exact Z|].
  destruct B as [|u v b d K B]; [exact Z|]. cbn [sumSqDif]. apply IH; [exact B|]. apply zr_add; [exact Z|].
  apply zr_mul; apply zr_sub; assumption.
Qed.
Lemma allsmall_zr : forall a b c d t s, Forall2 zr a c -> Forall2 zr b d -> allSmallDiff a b t s = allSmallDiff c d t s.
Proof.
  intros a b c d t s A. revert b d s. induction A as [|x y a c H A IH]; intros b d s B; [reflexivity|].
  destruct B as [|u v b d K B]; [reflexivity|]. cbn [allSmallDiff]. destruct s; [|reflexivity].
  rewrite (smalldiff_zr _ _ _ _ t H K). apply IH, B.
Qed.
Lemma validarr_zr : forall a c, Forall2 zr a c -> isValid_arr a = isValid_arr c.
Proof.
  intros a c A. destruct A as [|x y a c H A]; [reflexivity|]. unfold isValid_arr.
  rewrite (zr_valid _ _ H). revert A. generalize (isValid_Dub y). intros b A. revert b.
  induction A as [|u v a c K A IH]; intros b; [reflexivity|]. cbn. rewrite (zr_valid _ _ K). apply IH.
Qed.
Lemma arr_zr : forall a b c d t, Forall2 zr a c -> Forall2 zr b d -> nearlyEquals_arr a b t = nearlyEquals_arr c d t.
Proof.
  intros a b c d t A B. unfold nearlyEquals_arr. rewrite (validarr_zr _ _ A), (validarr_zr _ _ B).
  destruct (isValid_arr c && isValid_arr d); [|reflexivity]. cbv zeta.
  set (z := @nzero f64 (@narith_ring f64 Arith_B)).
  pose proof (inner_zr _ _ _ _ z z B B (zr_refl _)) as N.
  pose proof (sumsq_zr _ _ _ _ z z A B (zr_refl _)) as D.
  revert N D. generalize (inner_product b b z) (inner_product d d z) (sumSqDif a b z) (sumSqDif c d z).
  intros n n' m m' N D.
  destruct N as [n|s s'].
  - destruct (nltb (nsqrt n) lim_min).
    + destruct A as [|x y a c H A]; [destruct B; reflexivity|]. destruct B as [|u v b d K B]; [reflexivity|].
      rewrite (abs_zr _ _ _ _ t H K). apply allsmall_zr; assumption.
    + apply small_zr, zr_sqrt, zr_div; [exact D|reflexivity].
  - assert (L : forall s, @nltb f64 _ (nsqrt (B754_zero s : f64)) lim_min = true) by (intros []; vm_compute; reflexivity).
    rewrite (L s), (L s'). destruct A as [|x y a c H A]; [destruct B; reflexivity|]. destruct B as [|u v b d K B]; [reflexivity|].
    rewrite (abs_zr _ _ _ _ t H K). apply allsmall_zr; assumption.
Qed.

Lemma all2_zr : forall t (l m l' m' : list (list f64)), Forall2 (Forall2 zr) l l' -> Forall2 (Forall2 zr) m m' ->
  all2 (fun a b => nearlyEquals_arr a b t) l m = all2 (fun a b => nearlyEquals_arr a b t) l' m'.
Proof.
  intros t l m l' m' A. revert m m'. induction A as [|x x' l l' H A IH]; intros m m' B; [destruct B; reflexivity|].
  destruct B as [|y y' m m' K B]; [reflexivity|]. cbn. rewrite (arr_zr _ _ _ _ t H K), (IH _ _ B). reflexivity.
Qed.
Lemma grades_rel : forall F (R : F -> F -> Prop) t (x x' : val F t), relv R t x x' -> Forall2 (Forall2 R) (grades t x) (grades t x').
Proof.
  intros F R t x x' H. unfold relv in H. destruct t; dvs; cbv in H |- *; inv2;
    repeat first [apply Forall2_nil | apply Forall2_cons]; assumption.
Qed.
Lemma grades_zr : forall t (x x' : val f64 t), relv zr t x x' -> Forall2 (Forall2 zr) (grades t x) (grades t x').
Proof. intros t x x'. apply grades_rel. Qed.
Lemma nearly_zr : forall t (x x' y y' : val f64 t) tol, relv zr t x x' -> relv zr t y y' ->
  nearlyEquals t x y tol = nearlyEquals t x' y' tol.
Proof.
  intros t x x' y y' tol A B. assert (T : t = TDub \/ t <> TDub) by (destruct t; auto; right; discriminate).
  destruct T as [->|T].
  - unfold relv in A, B. cbn in A, B. apply rel_zr; [inversion A|inversion B]; assumption.
  - rewrite !nearly_grades by exact T. apply all2_zr; apply grades_zr; assumption.
Qed.
Lemma ieee_zr : forall x y, ieee_equal x y -> zr x y.
Proof. intros x y [[_ <-]|(s & s' & -> & ->)]; constructor. Qed.
Lemma equal_nearly : forall t f (x y : val f64 t) tol, eqeq t = Some f -> f x y = true -> all_valid t x ->
  Bltb (B754_zero false) tol = true -> nearlyEquals t x y tol = true.
Proof.
  intros t f x y tol E H V P. apply (eqeq_spec t f x y E) in H.
  rewrite <- (nearly_zr t x x x y tol).
  - apply nearly_refl; assumption.
  - unfold relv. clear. induction (elems t x); constructor; [constructor|assumption].
  - unfold relv. clear - H. induction H as [|a b l m K _ IH]; constructor; [apply ieee_zr, K|exact IH].
Qed.
(** ** Larger tolerances *)
Lemma ltb_leb : forall v t t' : f64, Bltb v t = true -> Bleb t t' = true -> Bltb v t' = true.
Proof.
  intros v t t' A B. destruct (fin v && fin t && fin t') eqn:F.
  - apply andb_prop in F as [F F3]. apply andb_prop in F as [F1 F2].
    rewrite Bltb_correct in * by assumption. rewrite Bleb_correct in B by assumption.
    apply Rlt_bool_true. destruct (Rlt_bool_spec (b2r v) (b2r t)) as [K|K]; [|discriminate A].
    destruct (Rle_bool_spec (b2r t) (b2r t')) as [L|L]; [|discriminate B]. lra.
  - destruct v as [sv|sv| |sv mv ev Hv], t as [st|st| |st mt et Ht], t' as [su|su| |su mu eu Hu];
      try discriminate F; try destruct sv; try destruct st; try destruct su; try discriminate A; try discriminate B; reflexivity.
Qed.
Section Mono.
Variables t t' : f64.
Hypothesis LE : Bleb t t' = true.
Lemma small_mono : forall v, isSmallAbs v t = true -> isSmallAbs v t' = true.
Proof. intros v H. exact (ltb_leb _ _ _ H LE). Qed.
Lemma smalldiff_mono : forall a b, isSmallAbsDiff a b t = true -> isSmallAbsDiff a b t' = true.
Proof. intros a b. apply small_mono. Qed.
Lemma abs_mono : forall a b, nearlyEqualsAbs a b t = true -> nearlyEqualsAbs a b t' = true.
Proof. intros a b. unfold nearlyEqualsAbs. destruct (bothAreValid a b); [apply smalldiff_mono|auto]. Qed.
Lemma rel_mono : forall a b, nearlyEqualsRel a b t = true -> nearlyEqualsRel a b t' = true.
Proof.
  intros a b. unfold nearlyEqualsRel. destruct (bothAreValid a b); [|auto].
  destruct (nltb (nabs b) tolToZero); apply smalldiff_mono.
Qed.
Lemma allsmall_false : forall (a b : list f64) u, allSmallDiff a b u false = false.
Proof. intros [|x a] [|y b] u; reflexivity. Qed.
Lemma allsmall_mono : forall a b s s', (s = true -> s' = true) -> allSmallDiff a b t s = true -> allSmallDiff a b t' s' = true.
Proof.
  induction a as [|x a IH]; intros b s s' H E; [cbn in E |- *; auto|].
  destruct b as [|y b]; [cbn in E |- *; auto|]. cbn [allSmallDiff] in *. destruct s; [|discriminate E]. rewrite (H eq_refl).
  eapply IH; [|exact E]. apply smalldiff_mono.
Qed.
Lemma arr_mono : forall a b, nearlyEquals_arr a b t = true -> nearlyEquals_arr a b t' = true.
Proof.
  intros a b. unfold nearlyEquals_arr. destruct (isValid_arr a && isValid_arr b); [|auto]. cbv zeta.
  destruct (nltb (nsqrt (inner_product b b (@nzero f64 (@narith_ring f64 Arith_B)))) lim_min).
  - destruct a as [|x a]; [auto|]. destruct b as [|y b]; [auto|]. apply allsmall_mono, abs_mono.
  - apply small_mono.
Qed.
Lemma nearly_mono : forall u (x y : val f64 u), nearlyEquals u x y t = true -> nearlyEquals u x y t' = true.
Proof.
  intros u x y. assert (T : u = TDub \/ u <> TDub) by (destruct u; auto; right; discriminate).
  destruct T as [->|T]; [apply rel_mono|]. rewrite !nearly_grades by exact T. generalize (grades u x) (grades u y).
  induction l as [|a l IH]; intros [|b m]; cbn; try discriminate; auto. intros H. apply andb_prop in H as [H1 H2].
  rewrite (arr_mono _ _ H1), (IH _ H2). reflexivity.
Qed.
End Mono.

(** ** Statements without [zr] *)
Lemma relv_same : forall t (x x' : val f64 t), relv zr t x x' <-> samev t x x'.
Proof.
  intros t x x'. unfold relv, samev. split; intros H; induction H as [|a b l m K _ IH]; constructor; auto; apply zr_spec; exact K.
Qed.
Lemma relo_same : forall o (x x' : oval f64 o), relo zr o x x' -> sameo o x x'.
Proof. intros [t|] x x' H; [apply relv_same, H|exact I]. Qed.
Lemma nearly_sign : forall t (x x' y y' : val f64 t) tol, samev t x x' -> samev t y y' ->
  nearlyEquals t x y tol = nearlyEquals t x' y' tol.
Proof. intros t x x' y y' tol A B. apply nearly_zr; apply relv_same; assumption. Qed.
Lemma mul_same : forall a b (x x' : val f64 a) (y y' : val f64 b), samev a x x' -> samev b y y' ->
  samev (mulTy a b) (mul a b x y) (mul a b x' y').
Proof. intros a b x x' y y' A B. apply relv_same. apply (@mul_rel _ _ _ _ _ zr_ring); apply relv_same; assumption. Qed.
Lemma addsub_same : forall a b (x x' : val f64 a) (y y' : val f64 b), samev a x x' -> samev b y y' ->
  sameo (addTy a b) (add a b x y) (add a b x' y') /\ sameo (subTy a b) (sub a b x y) (sub a b x' y').
Proof.
  intros a b x x' y y' A B. split; apply relo_same; [apply (@add_rel _ _ _ _ _ zr_ring)|apply (@sub_rel _ _ _ _ _ zr_ring)];
    apply relv_same; assumption.
Qed.
Lemma uni_same : forall t (x x' : val f64 t), samev t x x' ->
  samev t (neg t x) (neg t x') /\ samev t (reverse t x) (reverse t x') /\ samev t (oddverse t x) (oddverse t x') /\
  samev t (dirverse t x) (dirverse t x') /\ samev (dualTy t) (dual t x) (dual t x') /\ same (magSq t x) (magSq t x').
Proof.
  intros t x x' H. apply relv_same in H. repeat split; try apply relv_same.
  - apply (@neg_rel _ _ _ _ _ zr_ring), H.
  - apply (@reverse_rel _ _ _ _ _ zr_ring), H.
  - apply (@oddverse_rel _ _ _ _ _ zr_ring), H.
  - apply (@dirverse_rel _ _ _ _ _ zr_ring), H.
  - apply (@dual_rel _ _ _ _ _ zr_ring), H.
  - apply zr_spec. apply (@magSq_rel _ _ _ _ _ zr_ring), H.
Qed.
Lemma same_example : same (B754_zero true) (B754_zero false) /\
  ~ same (@ndiv f64 _ (f64_lit 1 0) (B754_zero true)) (ndiv (f64_lit 1 0) (B754_zero false)).
Proof.
  split; [right; exists true, false; split; reflexivity|].
  intros [H|(s & s' & H & _)]; discriminate H.
Qed.
Lemma nearly_bool : forall a b, nearlyEquals_bool a b = true <-> a = b.
Proof. intros a b. apply Bool.eqb_true_iff. Qed.
