(** * Rounding errors of the products: proofs. *)

Require Import Reals ZArith List Bool Lra Lia.
From Flocq Require Import Core BinarySingleNaN.
Require Import Verif.Num Verif.Types Verif.Priv Verif.OpsUni Verif.OpsAdd Verif.OpsSub
  Verif.OpsMul Verif.Const Verif.Func Verif.SpecCl Verif.RealInst Verif.AlgTac Verif.AlgMul Verif.AlgFacts Verif.Rel
  Verif.B64 Verif.B64Facts Verif.SpecRound Verif.ArrErr Verif.IntFacts.
Import ListNotations.
Local Open Scope R_scope.

(** Number of roundings a value went through, number of products in it;
    [None]: not of the shape considered. *)
Definition cnt : Type := option (nat * nat).
Definition cadd2 (p q : cnt) : cnt :=
  match p, q with
  | Some (n, k), Some (m, l) => Some (S (Nat.max n m), (k + l)%nat)
  | _, _ => None
  end.
Definition cmul2 (p q : cnt) : cnt :=
  match p, q with
  | Some (0%nat, 0%nat), Some (0%nat, 0%nat) => Some (1%nat, 1%nat)
  | _, _ => None
  end.
Definition Ring0_cnt : Ring0 cnt := {|
  nzero := Some (0%nat, 0%nat); none_ := Some (0%nat, 0%nat);
  nadd := cadd2; nsub := cadd2; nmul := cmul2; nopp := fun c => c |}.
(** Sums of absolute values. *)
Definition Ring0_abs : Ring0 R := {|
  nzero := 0; none_ := 1; nadd := Rplus; nsub := Rplus; nmul := Rmult; nopp := fun x => x |}.
(** Exact value, sum of absolute values of terms, counts. *)
Definition trk : Type := (R * R * cnt)%type.
Definition tv (p : trk) : R := fst (fst p).
Definition tm (p : trk) : R := snd (fst p).
Definition tc (p : trk) : cnt := snd p.
Definition Ring0_trk : Ring0 trk := {|
  nzero := (0, 0, Some (0%nat, 0%nat)); none_ := (1, 1, Some (0%nat, 0%nat));
  nadd p q := (tv p + tv q, tm p + tm q, cadd2 (tc p) (tc q));
  nsub p q := (tv p - tv q, tm p + tm q, cadd2 (tc p) (tc q));
  nmul p q := (tv p * tv q, tm p * tm q, cmul2 (tc p) (tc q));
  nopp p := (- tv p, tm p, tc p) |}.

Definition ebound (n k : nat) (m : R) : R := ((1 + u53) ^ n - 1) * m + INR k * (1 + u53) ^ n * eta.
Definition errs (x : f64) (p : trk) : Prop :=
  Rabs (tv p) <= tm p /\
  match tc p with
  | Some (n, k) => fin x = true -> Rabs (b2r x - tv p) <= ebound n k (tm p)
  | None => True
  end.
Lemma ebound_mono : forall n n' k k' m, (n <= n')%nat -> (k <= k')%nat -> 0 <= m -> ebound n k m <= ebound n' k' m.
Proof.
  intros n n' k k' m Hn Hk Hm. unfold ebound. pose proof u53_pos. pose proof eta_pos.
  assert (P : (1 + u53) ^ n <= (1 + u53) ^ n') by (apply Rle_pow; [lra|exact Hn]).
  pose proof (pow2 n) as P1. apply le_INR in Hk. pose proof (pos_INR k).
  apply Rplus_le_compat; [apply Rmult_le_compat_r; lra|]. apply Rmult_le_compat_r; [lra|]. apply Rmult_le_compat; lra.
Qed.
(** One rounded addition of two approximations. *)
Lemma sum_step : forall x1 x2 v1 v2 m1 m2 r n k l,
  Rabs (x1 - v1) <= ebound n k m1 -> Rabs (x2 - v2) <= ebound n l m2 ->
  Rabs v1 <= m1 -> Rabs v2 <= m2 -> Rabs (r - (x1 + x2)) <= u53 * Rabs (x1 + x2) ->
  Rabs (r - (v1 + v2)) <= ebound (S n) (k + l) (m1 + m2).
Proof.
  intros x1 x2 v1 v2 m1 m2 r n k l E1 E2 V1 V2 E. pose proof u53_pos as U.
  assert (T : Rabs (x1 + x2) <= (m1 + m2) + (ebound n k m1 + ebound n l m2)).
  { replace (x1 + x2) with ((v1 + v2) + ((x1 - v1) + (x2 - v2))) by ring.
    eapply Rle_trans; [apply Rabs_triang|]. pose proof (Rabs_triang v1 v2). pose proof (Rabs_triang (x1 - v1) (x2 - v2)). lra. }
  assert (T2 : Rabs (r - (v1 + v2)) <= u53 * Rabs (x1 + x2) + (ebound n k m1 + ebound n l m2)).
  { replace (r - (v1 + v2)) with ((r - (x1 + x2)) + ((x1 - v1) + (x2 - v2))) by ring.
    eapply Rle_trans; [apply Rabs_triang|]. pose proof (Rabs_triang (x1 - v1) (x2 - v2)). lra. }
  apply (Rmult_le_compat_l u53) in T; [|lra].
  apply Rle_trans with (u53 * (m1 + m2 + (ebound n k m1 + ebound n l m2)) + (ebound n k m1 + ebound n l m2)); [lra|].
  right. unfold ebound. cbn [pow]. rewrite plus_INR. ring.
Qed.
Lemma rabs_le0 : forall x, Rabs x <= 0 -> x = 0.
Proof. intros x H. pose proof (Rle_abs x). pose proof (Rle_abs (- x)). rewrite Rabs_Ropp in *. lra. Qed.
Lemma errs_rel : ring_rel Ring0_B Ring0_trk errs.
Proof.
  pose proof u53_pos as U. pose proof eta_pos as He.
  split.
  - unfold errs. cbn [tv tm tc fst snd nzero Ring0_trk]. rewrite Rabs_R0. split; [lra|]. intros _.
    change (b2r (nzero : f64)) with 0. unfold ebound. cbn [pow INR]. rewrite Rminus_0_r, Rabs_R0. lra.
  - unfold errs. cbn [tv tm tc fst snd none_ Ring0_trk]. rewrite Rabs_R1. split; [lra|]. intros _.
    change (b2r (@none_ f64 Ring0_B)) with (b2r (none_ : f64)). rewrite (proj2 one_ok).
    unfold ebound. cbn [pow INR]. rewrite Rminus_eq_0, Rabs_R0. lra.
  - intros a b [[v1 m1] c1] [[v2 m2] c2] [V1 H1] [V2 H2]. unfold errs in *. cbn [tv tm tc fst snd nadd Ring0_trk] in *.
    split; [eapply Rle_trans; [apply Rabs_triang|]; lra|].
    destruct c1 as [[n1 k1]|], c2 as [[n2 k2]|]; try exact I. cbn [cadd2].
    change (nadd a b) with (Bplus mode_NE a b). intros F. apply bplus_fin in F. destruct F as (Fa & Fb & R).
    assert (M1 : 0 <= m1) by (pose proof (Rabs_pos v1); lra). assert (M2 : 0 <= m2) by (pose proof (Rabs_pos v2); lra).
    eapply sum_step; [| | exact V1 | exact V2 | rewrite R; apply err_plus].
    + eapply Rle_trans; [apply H1, Fa|]. apply ebound_mono; auto; lia.
    + eapply Rle_trans; [apply H2, Fb|]. apply ebound_mono; auto; lia.
  - intros a b [[v1 m1] c1] [[v2 m2] c2] [V1 H1] [V2 H2]. unfold errs in *. cbn [tv tm tc fst snd nsub Ring0_trk] in *.
    split; [unfold Rminus; eapply Rle_trans; [apply Rabs_triang|]; rewrite Rabs_Ropp; lra|].
    destruct c1 as [[n1 k1]|], c2 as [[n2 k2]|]; try exact I. cbn [cadd2].
    change (nsub a b) with (Bminus mode_NE a b). intros F. apply bminus_fin in F. destruct F as (Fa & Fb & R).
    assert (M1 : 0 <= m1) by (pose proof (Rabs_pos v1); lra). assert (M2 : 0 <= m2) by (pose proof (Rabs_pos v2); lra).
    unfold Rminus at 2. eapply (sum_step (b2r a) (- b2r b));
      [| | exact V1 | rewrite Rabs_Ropp; exact V2 | rewrite R; apply err_minus].
    + eapply Rle_trans; [apply H1, Fa|]. apply ebound_mono; auto; lia.
    + replace (- b2r b - - v2) with (- (b2r b - v2)) by ring. rewrite Rabs_Ropp.
      eapply Rle_trans; [apply H2, Fb|]. apply ebound_mono; auto; lia.
  - intros a b [[v1 m1] c1] [[v2 m2] c2] [V1 H1] [V2 H2]. unfold errs in *. cbn [tv tm tc fst snd nmul Ring0_trk] in *.
    assert (VM : Rabs (v1 * v2) <= m1 * m2) by (rewrite Rabs_mult; apply Rmult_le_compat; auto; apply Rabs_pos).
    split; [exact VM|].
    destruct c1 as [[[|n1] [|k1]]|], c2 as [[[|n2] [|k2]]|]; try exact I. cbn [cmul2].
    change (nmul a b) with (Bmult mode_NE a b). intros F. apply bmult_fin in F. destruct F as (Fa & Fb & R).
    specialize (H1 Fa). specialize (H2 Fb). unfold ebound in H1, H2. cbn [pow INR] in H1, H2.
    assert (E1 : b2r a = v1).
    { apply Rminus_diag_uniq, rabs_le0. lra. }
    assert (E2 : b2r b = v2).
    { apply Rminus_diag_uniq, rabs_le0. lra. }
    rewrite R, E1, E2. eapply Rle_trans; [apply err_any|]. unfold ebound. cbn [pow INR].
    assert (u53 * Rabs (v1 * v2) <= u53 * (m1 * m2)) by (apply Rmult_le_compat_l; lra).
    assert (0 <= u53 * eta) by (apply Rmult_le_pos; lra). lra.
  - intros a [[v1 m1] c1] [V1 H1]. unfold errs in *. cbn [tv tm tc fst snd nopp Ring0_trk] in *.
    rewrite Rabs_Ropp. split; [exact V1|]. destruct c1 as [[n1 k1]|]; [|exact I].
    change (nopp a) with (Bopp a). rewrite is_finite_Bopp, B2R_Bopp. intros F.
    replace (- b2r a - - v1) with (- (b2r a - v1)) by ring. rewrite Rabs_Ropp. auto.
Qed.
Lemma tv_rel : ring_rel Ring0_trk Ring0_R (fun p r => tv p = r).
Proof. split; cbn; intros; subst; reflexivity. Qed.
Lemma tm_rel : ring_rel Ring0_trk Ring0_abs (fun p r => tm p = r).
Proof. split; cbn; intros; subst; reflexivity. Qed.
Lemma tc_rel : ring_rel Ring0_trk Ring0_cnt (fun p c => tc p = c).
Proof. split; cbn; intros; subst; reflexivity. Qed.

Definition track (t : ty) (x : val f64 t) : val trk t :=
  mapv (fun v : f64 => (b2r v, Rabs (b2r v), Some (0%nat, 0%nat))) t x.
Definition absv (t : ty) (x : val f64 t) : val R t := mapv (fun v : f64 => Rabs (b2r v)) t x.
Lemma track_errs : forall t x, relv errs t x (track t x).
Proof.
  intros t x. unfold relv, track. rewrite elems_mapv. induction (elems t x) as [|v l IH]; cbn [map]; constructor; auto.
  split; cbn; [lra|]. intros _. unfold ebound. cbn [pow INR]. rewrite Rminus_eq_0, Rabs_R0. pose proof eta_pos. lra.
Qed.
Lemma track_tv : forall t x, relv (fun p r => tv p = r) t (track t x) (exactv t x).
Proof. intros t x. unfold relv, track, exactv. rewrite !elems_mapv. induction (elems t x) as [|v l IH]; cbn [map]; constructor; auto. Qed.
Lemma track_tm : forall t x, relv (fun p r => tm p = r) t (track t x) (absv t x).
Proof. intros t x. unfold relv, track, absv. rewrite !elems_mapv. induction (elems t x) as [|v l IH]; cbn [map]; constructor; auto. Qed.
Lemma track_tc : forall t x, relv (fun p c => tc p = c) t (track t x) (@constv cnt (Some (0%nat, 0%nat)) t).
Proof.
  intros t x. rewrite <- (mapv_const f64 cnt (Some (0%nat, 0%nat)) t x).
  unfold relv, track. rewrite !elems_mapv. induction (elems t x) as [|v l IH]; cbn [map]; constructor; auto.
Qed.

(** Counts of the products. *)
Definition cnt_le (n k : nat) (c : cnt) : bool :=
  match c with Some (n', k') => Nat.leb n' n && Nat.leb k' k | None => false end.
Lemma mul_cnt : forall a b, forallb (cnt_le 8 8)
  (elems (mulTy a b) (@mul cnt Ring0_cnt a b (@constv cnt (Some (0%nat, 0%nat)) a) (@constv cnt (Some (0%nat, 0%nat)) b))) = true.
Proof. intros a b; destruct a, b; vm_compute; reflexivity. Qed.

(** Components. *)
Definition den8p (s x y z p q r t : R) : clf := fun k =>
  match k with
  | B false false false => s
  | B true  false false => x
  | B false true  false => y
  | B false false true  => z
  | B false true  true  => p
  | B true  false true  => q
  | B true  true  false => r
  | B true  true  true  => t
  end.
Definition denp (t : ty) : val R t -> clf :=
  match t with
  | TDub => fun x => den8p x 0 0 0 0 0 0 0
  | TSca => fun x => den8p (sca_0 x) 0 0 0 0 0 0 0
  | TVec => fun v => den8p 0 (vec_0 v) (vec_1 v) (vec_2 v) 0 0 0 0
  | TBiv => fun b => den8p 0 0 0 0 (biv_0 b) (biv_1 b) (biv_2 b) 0
  | TTri => fun x => den8p 0 0 0 0 0 0 0 (tri_0 x)
  | TSpin => fun m => den8p (sca_0 (spinSca m)) 0 0 0
      (biv_0 (spinBiv m)) (biv_1 (spinBiv m)) (biv_2 (spinBiv m)) 0
  | TImsp => fun m => den8p 0 (vec_0 (imspVec m)) (vec_1 (imspVec m)) (vec_2 (imspVec m))
      0 0 0 (tri_0 (imspTri m))
  | TCplx => fun m => den8p (sca_0 (cplxSca m)) 0 0 0 0 0 0 (tri_0 (cplxTri m))
  | TDplx => fun m => den8p 0 (vec_0 (dplxVec m)) (vec_1 (dplxVec m)) (vec_2 (dplxVec m))
      (biv_0 (dplxBiv m)) (biv_1 (dplxBiv m)) (biv_2 (dplxBiv m)) 0
  | TMvec => fun m => den8p (sca_0 (mvSca m))
      (vec_0 (mvVec m)) (vec_1 (mvVec m)) (vec_2 (mvVec m))
      (biv_0 (mvBiv m)) (biv_1 (mvBiv m)) (biv_2 (mvBiv m)) (tri_0 (mvTri m))
  end.
Definition gpp (a b : clf) : clf := fun k => rsum (map (fun i => a i * b (bxor i k)) all_blades).
Lemma mul_denp : forall a b (x : val R a) (y : val R b),
  ceq (denp (mulTy a b) (@mul R Ring0_abs a b x y)) (gpp (denp a x) (denp b y)).
Proof. intros a b x y; destruct a, b; dvals; intro k; dblade k; dring. Qed.
Lemma den_abs : forall t (x : val f64 t) k, Rabs (exactly t x k) = denp t (absv t x) k.
Proof.
  intros t x k. unfold exactly, absv. destruct t; dvs; dblade k;
    cbv -[B2R Rabs Ropp R0 IZR]; rewrite ?Rabs_Ropp, ?Rabs_R0; reflexivity.
Qed.

(** The error of each component against the exact one. *)
Definition close (A B : R) (x : f64) (p : R * R) : Prop := Rabs (b2r x - fst p) <= A * snd p + B.
Lemma den_close : forall A B t (x : val f64 t) (P : val (R * R) t), 0 <= A -> 0 <= B ->
  relv (close A B) t x P ->
  forall k, Rabs (exactly t x k - den t (mapv fst t P) k) <= A * denp t (mapv snd t P) k + B.
Proof.
  intros A B t x P HA HB H k. unfold relv, close, exactly in *.
  assert (Z : Rabs (0 - 0) <= A * 0 + B) by (rewrite Rminus_0_r, Rabs_R0; lra).
  assert (N : forall u v, Rabs (- u - - v) = Rabs (u - v)).
  { intros u v. replace (- u - - v) with (- (u - v)) by ring. apply Rabs_Ropp. }
  destruct t; dvs; dblade k;
    cbv -[B2R Rabs Ropp Rminus Rplus Rmult R0 IZR Rle] in *; inv2; rewrite ?N; auto.
Qed.

(** Collecting the three runs. *)
Lemma close_list : forall N K (l : list f64) (p : list trk) (c : list cnt),
  Forall2 errs l p -> Forall2 (fun p c => tc p = c) p c -> forallb (cnt_le N K) c = true ->
  Forall (fun v : f64 => fin v = true) l ->
  Forall2 (close ((1 + u53) ^ N - 1) (INR K * (1 + u53) ^ N * eta)) l (map (fun p => fst p) p).
Proof.
  intros N K l p c H. revert c. induction H as [|v q l p Hv H IH]; intros c C B F; cbn [map]; constructor.
  - inversion C; subst. cbn [forallb] in B. apply andb_true_iff in B. destruct B as [B _]. inversion F; subst.
    destruct Hv as [V E]. unfold cnt_le in B. destruct (tc q) as [[n k]|]; [|discriminate].
    apply andb_true_iff in B. destruct B as [B1 B2]. apply Nat.leb_le in B1, B2. specialize (E ltac:(assumption)).
    unfold close. pose proof (Rabs_pos (tv q)).
    change (fst (fst q)) with (tv q). change (snd (fst q)) with (tm q).
    eapply Rle_trans; [exact E|]. apply (ebound_mono n N k K); auto. lra.
  - inversion C; subst. cbn [forallb] in B. apply andb_true_iff in B. destruct B as [_ B]. inversion F; subst. eapply IH; eauto.
Qed.
Lemma mapv_mapv : forall A B C (f : A -> B) (g : B -> C) t x, mapv g t (mapv f t x) = mapv (fun v => g (f v)) t x.
Proof. intros A B C f g t x; destruct t; dvs; reflexivity. Qed.
Lemma relv_mapv : forall A B (f : A -> B) t x y, relv (fun p r => f p = r) t x y -> mapv f t x = y.
Proof.
  intros A B f t x y H. unfold relv in H. destruct t; dvs; cbv -[B2R] in *; inv2; reflexivity.
Qed.
Lemma bound8 : (1 + u53) ^ 8 - 1 <= 9 * u53 /\ INR 8 * (1 + u53) ^ 8 <= 9.
Proof.
  assert (U : u53 = / 9007199254740992) by reflexivity. 
  rewrite U. cbn [pow]. split; [lra|]. replace (INR 8) with 8 by (cbn; lra). lra.
Qed.
Lemma mul_error : forall a b (x : val f64 a) (y : val f64 b),
  all_finite (mulTy a b) (mul a b x y) ->
  forall k, Rabs (exactly (mulTy a b) (mul a b x y) k - gp (exactly a x) (exactly b y) k)
    <= 9 * u53 * gp_abs (exactly a x) (exactly b y) k + 9 * eta.
Proof.
  intros a b x y F k. pose proof u53_pos. pose proof eta_pos.
  set (P := @mul trk Ring0_trk a b (track a x) (track b y)).
  pose proof (mul_rel errs_rel a b x y _ _ (track_errs a x) (track_errs b y)) as E. fold P in E.
  pose proof (mul_rel tc_rel a b _ _ _ _ (track_tc a x) (track_tc b y)) as C. fold P in C.
  pose proof (relv_mapv _ _ tv _ _ _ (mul_rel tv_rel a b _ _ _ _ (track_tv a x) (track_tv b y))) as V. fold P in V.
  pose proof (relv_mapv _ _ tm _ _ _ (mul_rel tm_rel a b _ _ _ _ (track_tm a x) (track_tm b y))) as M. fold P in M.
  pose proof (close_list 8 8 _ _ _ E C (mul_cnt a b) F) as L.
  set (A := (1 + u53) ^ 8 - 1) in *. set (B := INR 8 * (1 + u53) ^ 8 * eta) in *.
  destruct bound8 as [B8 C8].
  assert (HA : 0 <= A) by (unfold A; pose proof (pow2 8); lra).
  assert (HB : 0 <= B).
  { unfold B. apply Rmult_le_pos; [|lra]. apply Rmult_le_pos; [apply pos_INR|]. pose proof (pow2 8); lra. }
  assert (V' : mapv (@fst R R) _ (mapv (fun p : trk => fst p) _ P) = mapv tv _ P) by apply mapv_mapv.
  assert (M' : mapv (@snd R R) _ (mapv (fun p : trk => fst p) _ P) = mapv tm _ P) by apply mapv_mapv.
  assert (D : Rabs (exactly _ (mul a b x y) k - den _ (mapv tv _ P) k) <= A * denp _ (mapv tm _ P) k + B).
  { rewrite <- V', <- M'. apply den_close; auto. unfold relv. rewrite elems_mapv. exact L. }
  rewrite V, M in D.
  rewrite (mul_den a b (exactv a x) (exactv b y) k) in D.
  rewrite (mul_denp a b (absv a x) (absv b y) k) in D.
  assert (G : gpp (denp a (absv a x)) (denp b (absv b y)) k = gp_abs (exactly a x) (exactly b y) k).
  { unfold gpp, gp_abs. f_equal. apply map_ext. intros i. rewrite !den_abs. reflexivity. }
  rewrite G in D.
  assert (Gp : 0 <= gp_abs (exactly a x) (exactly b y) k).
  { unfold gp_abs. generalize all_blades. induction l; cbn [map rsum fold_right]; [lra|].
    apply Rplus_le_le_0_compat; [apply Rmult_le_pos; apply Rabs_pos|exact IHl]. }
  change (den a (exactv a x)) with (exactly a x) in D. change (den b (exactv b y)) with (exactly b y) in D.
  eapply Rle_trans; [exact D|]. apply Rplus_le_compat.
  - apply Rmult_le_compat_r; [exact Gp|exact B8].
  - unfold B. apply Rmult_le_compat_r; [lra|exact C8].
Qed.
