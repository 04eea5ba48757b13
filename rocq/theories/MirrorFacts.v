(** * Reflections and negation on binary64 numbers: proofs. *)

Require Import Reals ZArith List Bool Lia.
From Flocq Require Import Core BinarySingleNaN.
Require Import Verif.Num Verif.Types Verif.Priv Verif.OpsUni Verif.OpsAdd Verif.OpsSub
  Verif.OpsMul Verif.Const Verif.Validity Verif.Compare Verif.Func Verif.SpecCl Verif.Rel Verif.B64 Verif.B64Facts
  Verif.SpecValid Verif.ValidFacts Verif.SpecCompare Verif.SpecSame Verif.SpecMirror Verif.CommFacts Verif.SameFacts.
Import ListNotations.

(** ** Numbers *)
Lemma zeq_zr : forall a b, zeq a b -> zr a b.
Proof. intros a b [->|(s & s' & -> & ->)]; constructor. Qed.
Lemma zr_trans : forall a b c, zr a b -> zr b c -> zr a c.
Proof.
  intros a b c H K. destruct H as [x|s s']; [exact K|]. inversion K; constructor.
Qed.
Lemma add_opp : forall x y : f64, zr (Bopp (Bplus mode_NE x y)) (Bplus mode_NE (Bopp x) (Bopp y)).
Proof.
  intros x y. pose proof (sub_anti x (Bopp y)) as H. rewrite !bminus_opp, opp_opp in H.
  apply zr_sym. rewrite bplus_comm. apply zeq_zr, H.
Qed.
Lemma sub_opp : forall x y : f64, zr (Bopp (Bminus mode_NE x y)) (Bminus mode_NE (Bopp x) (Bopp y)).
Proof. intros x y. rewrite !bminus_opp. apply add_opp. Qed.
Lemma bmult_opp_r : forall x y : f64, Bmult mode_NE x (Bopp y) = Bopp (Bmult mode_NE x y).
Proof. intros x y. rewrite bmult_comm, bmult_opp_l, bmult_comm. reflexivity. Qed.

(** ** Tags

    What is known about a number of the mirrored run: it is zero (or NaN) in
    both, it has the sign changed or not, or nothing. *)
Inductive tag : Set := Tz | Tt (b : bool) | Tbad.
Definition tadd (p q : tag) : tag :=
  match p, q with
  | Tz, _ => q
  | _, Tz => p
  | Tt b, Tt c => if eqb b c then Tt b else Tbad
  | _, _ => Tbad
  end.
Definition tmul (p q : tag) : tag :=
  match p, q with
  | Tbad, _ | _, Tbad => Tbad
  | Tz, _ | _, Tz => Tz
  | Tt b, Tt c => Tt (xorb b c)
  end.
#[global] Instance Ring0_tag : Ring0 tag :=
  {| nzero := Tz; none_ := Tt false; nadd := tadd; nsub := tadd; nmul := tmul; nopp := fun p => p |}.
#[global] Instance Ring0_tagged : Ring0 (tag * f64) :=
  {| nzero := (Tz, nzero); none_ := (Tt false, none_);
     nadd p q := (tadd (fst p) (fst q), nadd (snd p) (snd q));
     nsub p q := (tadd (fst p) (fst q), nsub (snd p) (snd q));
     nmul p q := (tmul (fst p) (fst q), nmul (snd p) (snd q));
     nopp p := (fst p, nopp (snd p)) |}.

Definition chs (b : bool) (a : f64) : f64 := if b then Bopp a else a.
Inductive zn : f64 -> f64 -> Prop :=
  | zn_zero : forall s s', zn (B754_zero s) (B754_zero s')
  | zn_nan : zn B754_nan B754_nan.
Definition holds (p : tag) (a b : f64) : Prop :=
  match p with Tz => zn a b | Tt c => zr (chs c a) b | Tbad => True end.

Lemma zn_zr : forall c a b, zn a b -> zr (chs c a) b.
Proof. intros [] a b []; constructor. Qed.
Lemma zr_opp_l : forall c a b, zr (chs c a) b -> zr (chs c (Bopp a)) (Bopp b).
Proof. intros [] a b H; apply (zr_opp _ _ H). Qed.
Lemma chs_mul : forall c d a b, chs (xorb c d) (Bmult mode_NE a b) = Bmult mode_NE (chs c a) (chs d b).
Proof. intros [] [] a b; cbn [chs xorb]; rewrite ?bmult_opp_l, ?bmult_opp_r, ?opp_opp; reflexivity. Qed.
Lemma chs_add : forall c a b, zr (chs c (Bplus mode_NE a b)) (Bplus mode_NE (chs c a) (chs c b)).
Proof. intros [] a b; [apply add_opp|constructor]. Qed.
Lemma chs_sub : forall c a b, zr (chs c (Bminus mode_NE a b)) (Bminus mode_NE (chs c a) (chs c b)).
Proof. intros [] a b; [apply sub_opp|constructor]. Qed.
Lemma zn_opp : forall a b, zn a b -> zn (Bopp a) (Bopp b).
Proof. intros a b []; constructor. Qed.
Lemma zn_mul : forall a b c x y, zn a b -> zr (chs c x) y -> zn (Bmult mode_NE a x) (Bmult mode_NE b y).
Proof.
  intros a b c x y [s s'|] H; [|destruct x as [ | | | ], y as [ | | | ]; constructor].
  destruct c, x as [sx|sx| |sx mx ex Hx]; cbn [chs Bopp] in H; inversion H; subst; constructor.
Qed.
Lemma zn_add : forall a b c x y, zn a b -> zr (chs c x) y -> zr (chs c (Bplus mode_NE a x)) (Bplus mode_NE b y).
Proof.
  intros a b c x y [s s'|] H; [|destruct c, x as [ | | | ], y as [ | | | ]; constructor].
  assert (K : forall s z, zr (Bplus mode_NE (B754_zero s) z) z).
  { intros u [[]|[]| |sz mz ez Hz]; destruct u; constructor. }
  eapply zr_trans; [|apply zr_sym, K]. eapply zr_trans; [|exact H]. destruct c; [apply zr_opp|]; apply K.
Qed.
Lemma zn_add_zn : forall a b x y, zn a b -> zn x y -> zn (Bplus mode_NE a x) (Bplus mode_NE b y).
Proof. intros a b x y [s s'|] [t t'|]; try constructor. destruct s, s', t, t'; constructor. Qed.
Lemma zn_mul_zn : forall a b x y, zn a b -> zn x y -> zn (Bmult mode_NE a x) (Bmult mode_NE b y).
Proof. intros a b x y H K. eapply (zn_mul a b false); [exact H|]. apply zn_zr, K. Qed.
Lemma zr_chs_opp : forall c a b, zr (chs c a) b -> zr (chs c (Bopp a)) (Bopp b).
Proof. intros [] a b H; apply (zr_opp _ _ H). Qed.

Lemma holds_add : forall p q a b x y, holds p a b -> holds q x y -> holds (tadd p q) (Bplus mode_NE a x) (Bplus mode_NE b y).
Proof.
  intros [|c|] [|d|] a b x y H K; cbn [tadd]; try exact I.
  - apply zn_add_zn; assumption.
  - apply zn_add; assumption.
  - rewrite (bplus_comm a x), (bplus_comm b y). apply zn_add; assumption.
  - destruct (eqb c d) eqn:E; [|exact I]. apply eqb_prop in E. subst d. cbn [holds] in *.
    eapply zr_trans; [apply chs_add|]. apply (zr_add _ _ _ _ H K).
Qed.
Lemma holds_opp : forall p a b, holds p a b -> holds p (Bopp a) (Bopp b).
Proof. intros [|c|] a b H; [apply zn_opp, H|apply zr_chs_opp, H|exact I]. Qed.
Lemma holds_mul : forall p q a b x y, holds p a b -> holds q x y -> holds (tmul p q) (Bmult mode_NE a x) (Bmult mode_NE b y).
Proof.
  intros [|c|] [|d|] a b x y H K; cbn [tmul]; try exact I.
  - apply zn_mul_zn; assumption.
  - eapply zn_mul; [exact H|exact K].
  - rewrite (bmult_comm a x), (bmult_comm b y). eapply zn_mul; [exact K|exact H].
  - cbn [holds] in *. rewrite chs_mul. apply (zr_mul _ _ _ _ H K).
Qed.

Definition hrel (p : tag * f64) (b : f64) : Prop := holds (fst p) (snd p) b.
Definition frel (p : tag * f64) (u : tag) : Prop := fst p = u.
Definition srel (p : tag * f64) (a : f64) : Prop := snd p = a.
Lemma rel_holds : ring_rel Ring0_tagged Ring0_B hrel.
Proof.
  constructor.
  - exact (zn_zero false false).
  - exact (zr_refl none_).
  - intros a b c d H K. exact (holds_add _ _ _ _ _ _ H K).
  - intros a b c d H K. change (holds (tadd (fst a) (fst b)) (Bminus mode_NE (snd a) (snd b)) (Bminus mode_NE c d)).
    rewrite !bminus_opp. apply (holds_add _ _ _ _ _ _ H). apply holds_opp, K.
  - intros a b c d H K. exact (holds_mul _ _ _ _ _ _ H K).
  - intros a c H. exact (holds_opp _ _ _ H).
Qed.
Lemma rel_fst : ring_rel Ring0_tagged Ring0_tag frel.
Proof. constructor; intros; unfold frel in *; subst; reflexivity. Qed.
Lemma rel_snd : ring_rel Ring0_tagged Ring0_B srel.
Proof. constructor; intros; unfold srel in *; subst; reflexivity. Qed.

(** Values with a tag for each component. *)
Definition bladev (t : ty) : val blade t :=
  match t with
  | TDub => bS
  | TSca => Sca bS
  | TVec => Vec bE1 bE2 bE3
  | TBiv => Biv bE23 bE13 bE12
  | TTri => Tri bE123
  | TSpin => mkSpin (Sca bS) (Biv bE23 bE13 bE12)
  | TImsp => mkImsp (Vec bE1 bE2 bE3) (Tri bE123)
  | TCplx => mkCplx (Sca bS) (Tri bE123)
  | TDplx => mkDplx (Vec bE1 bE2 bE3) (Biv bE23 bE13 bE12)
  | TMvec => mkMvec (Sca bS) (Vec bE1 bE2 bE3) (Biv bE23 bE13 bE12) (Tri bE123)
  end.
Definition tagv (s : blade -> bool) (t : ty) : val tag t := mapv (fun k => Tt (s k)) t (bladev t).
Definition tle (p : tag) (c : bool) : Prop := p = Tz \/ p = Tt c.

Definition tagged (s : blade -> bool) (t : ty) (x : val f64 t) : val (tag * f64) t :=
  match t return val f64 t -> val (tag * f64) t with
  | TDub => fun x => (Tt (s bS), x)
  | TSca => fun x => Sca (Tt (s bS), sca_0 x)
  | TVec => fun x => Vec (Tt (s bE1), vec_0 x) (Tt (s bE2), vec_1 x) (Tt (s bE3), vec_2 x)
  | TBiv => fun x => Biv (Tt (s bE23), biv_0 x) (Tt (s bE13), biv_1 x) (Tt (s bE12), biv_2 x)
  | TTri => fun x => Tri (Tt (s bE123), tri_0 x)
  | TSpin => fun x => mkSpin (Sca (Tt (s bS), sca_0 (spinSca x)))
      (Biv (Tt (s bE23), biv_0 (spinBiv x)) (Tt (s bE13), biv_1 (spinBiv x)) (Tt (s bE12), biv_2 (spinBiv x)))
  | TImsp => fun x => mkImsp (Vec (Tt (s bE1), vec_0 (imspVec x)) (Tt (s bE2), vec_1 (imspVec x)) (Tt (s bE3), vec_2 (imspVec x)))
      (Tri (Tt (s bE123), tri_0 (imspTri x)))
  | TCplx => fun x => mkCplx (Sca (Tt (s bS), sca_0 (cplxSca x))) (Tri (Tt (s bE123), tri_0 (cplxTri x)))
  | TDplx => fun x => mkDplx (Vec (Tt (s bE1), vec_0 (dplxVec x)) (Tt (s bE2), vec_1 (dplxVec x)) (Tt (s bE3), vec_2 (dplxVec x)))
      (Biv (Tt (s bE23), biv_0 (dplxBiv x)) (Tt (s bE13), biv_1 (dplxBiv x)) (Tt (s bE12), biv_2 (dplxBiv x)))
  | TMvec => fun x => mkMvec (Sca (Tt (s bS), sca_0 (mvSca x)))
      (Vec (Tt (s bE1), vec_0 (mvVec x)) (Tt (s bE2), vec_1 (mvVec x)) (Tt (s bE3), vec_2 (mvVec x)))
      (Biv (Tt (s bE23), biv_0 (mvBiv x)) (Tt (s bE13), biv_1 (mvBiv x)) (Tt (s bE12), biv_2 (mvBiv x)))
      (Tri (Tt (s bE123), tri_0 (mvTri x)))
  end x.
Ltac f2 := repeat (apply Forall2_cons || apply Forall2_nil).
Lemma same_zr : forall a b, same a b <-> zr a b.
Proof. intros a b. symmetry. apply zr_spec. Qed.
Lemma tagged_holds : forall s t (x y : val f64 t), mirrored s t x y ->
  relv hrel t (tagged s t x) y.
Proof.
  intros s t x y H. unfold mirrored in H. unfold relv. destruct t; dvs; cbv -[same Bopp] in H; cbv -[hrel]; inv2; f2; unfold hrel; cbn [fst snd holds]; apply same_zr; assumption.
Qed.
Lemma tagged_fst : forall s t x, relv frel t (tagged s t x) (tagv s t).
Proof. intros s t x. unfold relv. destruct t; dvs; cbn; f2; reflexivity. Qed.
Lemma tagged_snd : forall s t x, relv srel t (tagged s t x) x.
Proof. intros s t x. unfold relv. destruct t; dvs; cbn; f2; reflexivity. Qed.

Lemma from_tags : forall s t (z : val (tag * f64) t) (g : val tag t) (x y : val f64 t),
  relv hrel t z y -> relv frel t z g ->
  relv srel t z x -> Forall2 tle (elems t g) (map s (comps t)) -> mirrored s t x y.
Proof.
  intros s t z g x y A B C D. unfold relv, mirrored in *.
  assert (K : forall p q a b (c : bool), hrel p b -> frel p q -> srel p a -> tle q c -> same (if c then Bopp a else a) b).
  { intros [p v] q a b c H E1 E2 [E|E]; unfold hrel, frel, srel in *; cbn [fst snd] in *; subst; subst; apply same_zr; [apply (zn_zr c), H|exact H]. }
  destruct t; dvs; cbv -[hrel frel srel tle same Bopp] in A, B, C, D |- *; inv2; f2; eapply K; eassumption.
Qed.

(** ** Operators *)
Definition tleb (p : tag) (c : bool) : bool := match p with Tz => true | Tt d => eqb d c | Tbad => false end.
Fixpoint all_tle (l : list tag) (m : list bool) : bool :=
  match l, m with
  | [], [] => true
  | p :: l', c :: m' => tleb p c && all_tle l' m'
  | _, _ => false
  end.
Lemma all_tle_spec : forall l m, all_tle l m = true -> Forall2 tle l m.
Proof.
  induction l as [|p l IH]; intros [|c m] H; try discriminate H; constructor; apply andb_prop in H as [A B].
  - destruct p as [|d|]; [left; reflexivity|right|discriminate A]. apply eqb_prop in A. subst. reflexivity.
  - apply IH, B.
Qed.
Definition tys : list ty := [TDub; TSca; TVec; TBiv; TTri; TSpin; TImsp; TCplx; TDplx; TMvec].
Lemma in_tys : forall t, In t tys.
Proof. intros []; cbn; auto 12. Qed.
Definition bools : list bool := [false; true].
Lemma in_bools : forall b, In b bools.
Proof. intros []; cbn; auto. Qed.
(** Every choice of signs for the eight blades. *)
Definition sfun (b : list bool) (k : blade) : bool :=
  nth ((if in1 k then 1 else 0) + (if in2 k then 2 else 0) + (if in3 k then 4 else 0)) b false.
Definition bits (s : blade -> bool) : list bool := [s bS; s bE1; s bE2; s bE12; s bE3; s bE13; s bE23; s bE123].
Fixpoint all_bits (n : nat) : list (list bool) :=
  match n with O => [[]] | S m => flat_map (fun l => [false :: l; true :: l]) (all_bits m) end.
Lemma in_bits : forall l, In l (all_bits (length l)).
Proof.
  induction l as [|b l IH]; [left; reflexivity|]. cbn [length all_bits]. apply in_flat_map. exists l. split; [exact IH|].
  destruct b; cbn; auto.
Qed.
Lemma sfun_bits : forall s k, sfun (bits s) k = s k.
Proof. intros s [[] [] []]; reflexivity. Qed.
Lemma tagv_bits : forall s t, tagv (sfun (bits s)) t = tagv s t.
Proof. intros s []; reflexivity. Qed.

Section Ops.
Lemma mul_tags : forall r1 r2 r3 c c' a b,
  Forall2 tle (elems (mulTy a b) (mul a b (tagv (mirror c r1 r2 r3) a) (tagv (mirror c' r1 r2 r3) b)))
    (map (mirror (xorb c c') r1 r2 r3) (comps (mulTy a b))).
Proof.
  assert (K : forallb (fun r1 => forallb (fun r2 => forallb (fun r3 => forallb (fun c => forallb (fun c' =>
    forallb (fun a => forallb (fun b =>
      all_tle (elems (mulTy a b) (mul a b (tagv (mirror c r1 r2 r3) a) (tagv (mirror c' r1 r2 r3) b)))
        (map (mirror (xorb c c') r1 r2 r3) (comps (mulTy a b)))) tys) tys) bools) bools) bools) bools) bools = true)
    by (vm_cast_no_check (eq_refl true)).
  intros r1 r2 r3 c c' a b. apply all_tle_spec.
  rewrite forallb_forall in K. specialize (K r1 (in_bools r1)). cbv beta in K.
  rewrite forallb_forall in K. specialize (K r2 (in_bools r2)). cbv beta in K.
  rewrite forallb_forall in K. specialize (K r3 (in_bools r3)). cbv beta in K.
  rewrite forallb_forall in K. specialize (K c (in_bools c)). cbv beta in K.
  rewrite forallb_forall in K. specialize (K c' (in_bools c')). cbv beta in K.
  rewrite forallb_forall in K. specialize (K a (in_tys a)). cbv beta in K.
  rewrite forallb_forall in K. exact (K b (in_tys b)).
Qed.
Lemma mul_mirror : forall r1 r2 r3 c c' a b (x x' : val f64 a) (y y' : val f64 b),
  mirrored (mirror c r1 r2 r3) a x x' -> mirrored (mirror c' r1 r2 r3) b y y' ->
  mirrored (mirror (xorb c c') r1 r2 r3) (mulTy a b) (mul a b x y) (mul a b x' y').
Proof.
  intros r1 r2 r3 c c' a b x x' y y' H K.
  eapply from_tags; [| | |apply mul_tags].
  - apply (mul_rel rel_holds); apply tagged_holds; [exact H|exact K].
  - apply (mul_rel rel_fst); apply tagged_fst.
  - apply (mul_rel rel_snd); apply tagged_snd.
Qed.
Definition otags (o : option ty) : oval tag o -> list tag :=
  match o return oval tag o -> list tag with Some t => elems t | None => fun _ => [] end.
Definition ocomps (o : option ty) : list blade := match o with Some t => comps t | None => [] end.
Lemma addsub_tags : forall s a b,
  Forall2 tle (otags (addTy a b) (add a b (tagv s a) (tagv s b))) (map s (ocomps (addTy a b))) /\
  Forall2 tle (otags (subTy a b) (sub a b (tagv s a) (tagv s b))) (map s (ocomps (subTy a b))).
Proof.
  assert (K : forallb (fun l => forallb (fun a => forallb (fun b =>
      all_tle (otags (addTy a b) (add a b (tagv (sfun l) a) (tagv (sfun l) b))) (map (sfun l) (ocomps (addTy a b))) &&
      all_tle (otags (subTy a b) (sub a b (tagv (sfun l) a) (tagv (sfun l) b))) (map (sfun l) (ocomps (subTy a b)))) tys) tys)
    (all_bits 8) = true) by (vm_cast_no_check (eq_refl true)).
  intros s a b.
  rewrite forallb_forall in K. specialize (K (bits s) (in_bits (bits s))). cbv beta in K.
  rewrite forallb_forall in K. specialize (K a (in_tys a)). cbv beta in K.
  rewrite forallb_forall in K. specialize (K b (in_tys b)). cbv beta in K.
  rewrite !tagv_bits in K. rewrite !(map_ext _ _ (sfun_bits s)) in K. apply andb_prop in K as [K1 K2].
  split; apply all_tle_spec; assumption.
Qed.
Lemma from_tagso : forall s o (z : oval (tag * f64) o) (g : oval tag o) (x y : oval f64 o),
  relo hrel o z y -> relo frel o z g -> relo srel o z x -> Forall2 tle (otags o g) (map s (ocomps o)) -> mirroredo s o x y.
Proof. intros s [t|] z g x y A B C D; [eapply from_tags; eassumption|exact I]. Qed.
Lemma addsub_mirror : forall s a b (x x' : val f64 a) (y y' : val f64 b),
  mirrored s a x x' -> mirrored s b y y' ->
  mirroredo s (addTy a b) (add a b x y) (add a b x' y') /\ mirroredo s (subTy a b) (sub a b x y) (sub a b x' y').
Proof.
  intros s a b x x' y y' H K. destruct (addsub_tags s a b) as [TA TS]. split.
  - eapply from_tagso; [| | |exact TA].
    + apply (add_rel rel_holds); apply tagged_holds; [exact H|exact K].
    + apply (add_rel rel_fst); apply tagged_fst.
    + apply (add_rel rel_snd); apply tagged_snd.
  - eapply from_tagso; [| | |exact TS].
    + apply (sub_rel rel_holds); apply tagged_holds; [exact H|exact K].
    + apply (sub_rel rel_fst); apply tagged_fst.
    + apply (sub_rel rel_snd); apply tagged_snd.
Qed.
Lemma uni_tags : forall s t,
  Forall2 tle (elems t (neg t (tagv s t))) (map s (comps t)) /\
  Forall2 tle (elems t (reverse t (tagv s t))) (map s (comps t)) /\
  Forall2 tle (elems t (oddverse t (tagv s t))) (map s (comps t)) /\
  Forall2 tle (elems t (dirverse t (tagv s t))) (map s (comps t)) /\
  Forall2 tle (elems (dualTy t) (dual t (tagv s t))) (map (fun k => s (complement k)) (comps (dualTy t))) /\
  Forall2 tle (elems TMvec (to_mv t (tagv s t))) (map s (comps TMvec)).
Proof.
  intros s t. repeat apply conj; destruct t; cbv; f2; (right; reflexivity) || (left; reflexivity).
Qed.
Lemma uni_mirror : forall s t (x x' : val f64 t), mirrored s t x x' ->
  mirrored s t (neg t x) (neg t x') /\
  mirrored s t (reverse t x) (reverse t x') /\
  mirrored s t (oddverse t x) (oddverse t x') /\
  mirrored s t (dirverse t x) (dirverse t x') /\
  mirrored (fun k => s (complement k)) (dualTy t) (dual t x) (dual t x') /\
  mirrored s TMvec (to_mv t x) (to_mv t x').
Proof.
  intros s t x x' H. destruct (uni_tags s t) as (T1 & T2 & T3 & T4 & T5 & T6). repeat apply conj.
  - eapply from_tags; [apply (neg_rel rel_holds), tagged_holds, H|apply (neg_rel rel_fst), tagged_fst|apply (neg_rel rel_snd), tagged_snd|exact T1].
  - eapply from_tags; [apply (reverse_rel rel_holds), tagged_holds, H|apply (reverse_rel rel_fst), tagged_fst|apply (reverse_rel rel_snd), tagged_snd|exact T2].
  - eapply from_tags; [apply (oddverse_rel rel_holds), tagged_holds, H|apply (oddverse_rel rel_fst), tagged_fst|apply (oddverse_rel rel_snd), tagged_snd|exact T3].
  - eapply from_tags; [apply (dirverse_rel rel_holds), tagged_holds, H|apply (dirverse_rel rel_fst), tagged_fst|apply (dirverse_rel rel_snd), tagged_snd|exact T4].
  - eapply from_tags; [apply (dual_rel rel_holds), tagged_holds, H|apply (dual_rel rel_fst), tagged_fst|apply (dual_rel rel_snd), tagged_snd|exact T5].
  - eapply from_tags; [apply (to_mv_rel rel_holds), tagged_holds, H|apply (to_mv_rel rel_fst), tagged_fst|apply (to_mv_rel rel_snd), tagged_snd|exact T6].
Qed.
End Ops.

