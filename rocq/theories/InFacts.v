(** * Stream extraction: proofs. *)

Require Import Reals ZArith List Bool Ascii Lra Lia.
From Flocq Require Import Core BinarySingleNaN.
Require Import Verif.Num Verif.Types Verif.Priv Verif.B64 Verif.B64Facts Verif.Const Verif.Validity Verif.SpecValid Verif.ValidFacts Verif.ValidThm
  Verif.SpecCompare Verif.SpecIo Verif.Stream Verif.Io Verif.SpecRound Verif.SpecText Verif.TextFacts Verif.ParseFacts.
Import ListNotations.
Local Open Scope Z_scope.

Lemma reads_det : forall s x r x' r', reads s x r -> reads s x' r' -> x = x' /\ r = r'.
Proof.
  intros s x r x' r' A B. apply (get_reads _ _ _ None) in A. apply (get_reads _ _ _ None) in B.
  rewrite A in B. inversion B. auto.
Qed.
Lemma reads_nil : forall x r, ~ reads [] x r.
Proof. intros x r H. apply (get_reads _ _ _ None) in H. discriminate. Qed.
Lemma reads_all_det : forall s xs r, reads_all s xs r -> forall xs' r', reads_all s xs' r' -> length xs = length xs' ->
  xs = xs' /\ r = r'.
Proof.
  intros s xs r H. induction H as [s|s x s' xs rest A H IH]; intros xs' r' B L.
  - destruct xs'; [|discriminate]. inversion B; subst. auto.
  - inversion B as [|? x' s1 xs1 ? A' B' ]; subst; [discriminate|]. destruct (reads_det _ _ _ _ _ A A') as [-> ->].
    destruct (IH _ _ B') as [-> ->]; [inversion L; reflexivity|auto].
Qed.
Lemma reads_all_app : forall s xs r ys r', reads_all s xs r -> reads_all r ys r' -> reads_all s (xs ++ ys) r'.
Proof.
  intros s xs r ys r' H. induction H as [s|s x s' xs rest A H IH]; intros B; cbn; [exact B|].
  econstructor; [exact A|apply IH, B].
Qed.
Lemma reads_all_split : forall xs s ys r, reads_all s (xs ++ ys) r -> exists m, reads_all s xs m /\ reads_all m ys r.
Proof.
  induction xs as [|x xs IH]; intros s ys r H; cbn in H.
  - exists s. split; [constructor|exact H].
  - inversion H as [|? ? s' ? ? A B]; subst. destruct (IH _ _ _ B) as (m & C & D). exists m. split; [econstructor; eauto|exact D].
Qed.

(** The text that can still be read. *)
Definition rtext (i : istream) : text := if is_eof i then [] else is_text i.

Lemma get_cases : forall i c,
  (is_fail i = true /\ is_fail (snd (get_num i c)) = true) \/
  (is_fail i = false /\ exists x i', get_num i c = (Some x, i') /\ reads (rtext i) x (rtext i') /\
     is_fail i' = false /\ is_eof i' = nilb (is_text i')) \/
  (is_fail i = false /\ is_fail (snd (get_num i c)) = true /\ forall x r, ~ reads (rtext i) x r).
Proof.
  intros [s e f] c. unfold rtext. cbn [is_fail is_eof is_text].
  destruct f.
  - left. split; [reflexivity|]. unfold get_num. cbn [is_fail is_eof is_text]. rewrite orb_true_r. reflexivity.
  - right. destruct e.
    + right. repeat split. intros x r. apply reads_nil.
    + destruct (get_num (mkIs s false false) c) as [c' i'] eqn:G. destruct (is_fail i') eqn:F.
      * right. repeat split; auto. intros x r H. apply (get_reads _ _ _ c) in H. rewrite H in G. inversion G; subst. discriminate.
      * left. split; [reflexivity|]. destruct (get_sound _ _ _ _ G F) as (x & -> & R & E). exists x, i'.
        rewrite E. destruct (is_text i') eqn:X; cbn [nilb] in *; auto.
Qed.
Lemma fail_get : forall i c, is_eof i || is_fail i = true -> is_fail (snd (get_num i c)) = true.
Proof. intros i c H. unfold get_num. rewrite H. reflexivity. Qed.

(** What reading [n] numbers into an array achieves. *)
Definition full (n : nat) (i : istream) (ys : list f64) (i' : istream) : Prop :=
  is_fail i = false /\ reads_all (rtext i) ys (rtext i') /\ Forall valid_number ys /\
  is_fail i' = false /\ (n <> 0%nat -> is_eof i' = nilb (is_text i')).
Definition unable (n : nat) (i : istream) : Prop :=
  is_fail i = true \/ forall vs r, length vs = n -> Forall valid_number vs -> ~ reads_all (rtext i) vs r.

Lemma loop_ok : forall data i, exists data' ok i',
  in_loop i true data = Some (data', ok, i') /\ length data' = length data /\ (is_eof i || is_fail i = true -> data <> [] -> is_fail i' = true) /\
  (if ok then data = [] \/ exists ys, data' = map Some ys /\ full (length data) i ys i' else data <> [] /\ unable (length data) i).
Proof.
  induction data as [|d r IH]; intros i; cbn [in_loop].
  - exists [], true, i. repeat split; auto.
  - destruct (get_num i d) as [d' i1] eqn:G.
    pose proof (get_cases i d) as C. rewrite G in C. cbn [snd] in C.
    unfold isInputOkay. destruct (is_fail i1) eqn:F1.
    + assert (L : in_loop i1 false r = Some (r, false, i1)) by (destruct r; reflexivity). rewrite L.
      exists (d' :: r), false, i1. repeat split; auto; try discriminate.
      destruct C as [[C _]|[(_ & x & i' & E & _ & E2 & _)|(_ & _ & C)]]; [left; exact C|inversion E; subst; congruence|].
      right. intros vs rr Hl Hv H. destruct vs as [|v vs]; [discriminate|]. inversion H; subst. eapply C; eassumption.
    + destruct C as [[_ C]|[(Fi & x & i' & E & R & E2 & E3)|(_ & C & _)]]; try congruence.
      inversion E; subst d' i'. clear E.
      destruct (isValid_Dub x) eqn:V.
      * destruct (IH i1) as (r' & ok & i2 & H1 & H2 & H4 & H5). rewrite H1.
        exists (Some x :: r'), ok, i2. split; [reflexivity|]. split; [cbn; congruence|]. split; [intros D _; apply (fail_get i d) in D; rewrite G in D; cbn in D; congruence|].
        apply isValid_number in V. destruct ok.
        -- right. destruct H5 as [->|(ys & -> & Q1 & Q2 & Q3 & Q4 & Q5)].
           ++ inversion H1; subst. exists [x]. split; [reflexivity|]. repeat split; auto; try (constructor; auto).
              econstructor; [exact R|constructor].
           ++ exists (x :: ys). split; [reflexivity|]. repeat split; auto.
              ** econstructor; eassumption.
              ** intros _. destruct r as [|d2 r2]; [|apply Q5; discriminate].
                 destruct ys; [|discriminate]. inversion H1; subst. exact E3.
        -- split; [discriminate|]. destruct H5 as [Hr [U|U]]; [congruence|]. right. intros vs rr Hl Hv H.
           destruct vs as [|v vs]; [discriminate|]. inversion H as [|? ? s' ? ? A B]; subst.
           destruct (reads_det _ _ _ _ _ R A) as [<- <-]. inversion Hv; subst. eapply U; eauto.
      * assert (L : in_loop i1 false r = Some (r, false, i1)) by (destruct r; reflexivity). rewrite L.
        exists (Some x :: r), false, i1. repeat split; auto; try congruence; try discriminate.
        { intros D _. apply (fail_get i d) in D. rewrite G in D. cbn in D. congruence. }
        right. intros vs rr Hl Hv H. destruct vs as [|v vs]; [discriminate|]. inversion H as [|? ? s' ? ? A B]; subst.
        destruct (reads_det _ _ _ _ _ R A) as [<- <-]. inversion Hv as [|? ? Hx ?]; subst. apply isValid_number in Hx. congruence.
Qed.
(** The loop does not depend on what the cells held. *)
Lemma loop_indep : forall data i, forall data2, length data2 = length data ->
  match in_loop i true data, in_loop i true data2 with
  | Some (d1, ok1, i1), Some (d2, ok2, i2) => ok1 = ok2 /\ i1 = i2 /\ (ok1 = true -> d1 = d2)
  | _, _ => False
  end.
Proof.
  induction data as [|d r IH]; intros i [|d2 r2] L; try discriminate; cbn [in_loop]; [auto|].
  assert (S : snd (get_num i d) = snd (get_num i d2) /\
    (is_fail (snd (get_num i d)) = false -> fst (get_num i d) = fst (get_num i d2))).
  { unfold get_num. destruct (is_eof i || is_fail i); [split; [reflexivity|discriminate]|].
    destruct (skip_space (is_text i)) as [|a t]; [split; [reflexivity|discriminate]|].
    destruct (scan (a :: t)) as [[[[? ?] ?] ?] ?]. destruct (convert _ _ _ _). split; reflexivity. }
  pose proof (get_cases i d) as C.
  destruct (get_num i d) as [c1 i1]. destruct (get_num i d2) as [c2 i2]. cbn [fst snd] in *. destruct S as [<- S].
  unfold isInputOkay. destruct (is_fail i1) eqn:F.
  - destruct r, r2; cbn; repeat split; try discriminate.
  - rewrite <- S by reflexivity. clear S.
    destruct C as [[_ C]|[(_ & x & i' & E & _)|(_ & C & _)]]; try congruence. inversion E; subst c1 i'.
    destruct (isValid_Dub x).
    + specialize (IH i1 r2 (eq_add_S _ _ L)).
      destruct (in_loop i1 true r) as [[[a b] e]|]; destruct (in_loop i1 true r2) as [[[a' b'] e']|]; try contradiction.
      destruct IH as (-> & -> & H). repeat split. intros Hb. rewrite H by exact Hb. reflexivity.
    + destruct r, r2; cbn; repeat split; try discriminate.
Qed.

Definition arr_post (n : nat) (i : istream) (ys : list f64) (i' : istream) : Prop :=
  length ys = n /\ (is_eof i || is_fail i = true -> is_fail i' = true) /\
  (full n i ys i' \/ (Forall (fun v => is_nan v = true) ys /\ unable n i)).
Lemma map_const : forall {A B} (c : B) (l : list A), map (fun _ => c) l = repeat c (length l).
Proof. intros A B c l. induction l; cbn; congruence. Qed.
Lemma map_repeat' : forall {A B} (f : A -> B) a n, map f (repeat a n) = repeat (f a) n.
Proof. intros A B f a n. induction n; cbn; congruence. Qed.
Lemma arr_ok : forall n i, n <> 0%nat -> exists ys i', arr_post n i ys i' /\
  forall data, length data = n -> in_arr i data = Some (map Some ys, i').
Proof.
  intros n i Hn. destruct (loop_ok (repeat None n) i) as (d' & ok & i' & H1 & H2 & H4 & H5).
  rewrite repeat_length in *. assert (Hne : repeat (@None f64) n <> []) by (destruct n; [contradiction|discriminate]).
  assert (G : forall data, length data = n -> match in_loop i true data with
     | Some (d2, ok2, i2) => ok2 = ok /\ i2 = i' /\ (ok = true -> d2 = d') /\ length d2 = n | None => False end).
  { intros data Hd. pose proof (loop_indep (repeat None n) i data) as X. rewrite repeat_length, H1 in X. specialize (X Hd).
    destruct (loop_ok data i) as (d2 & ok2 & i2 & K1 & K2 & _). rewrite K1 in *. destruct X as (<- & <- & X).
    repeat split; auto. - intros Y. symmetry. auto. - congruence. }
  assert (In : forall data, length data = n -> in_arr i data = Some ((if ok then d' else repeat (Some (nnan : f64)) n), i')).
  { intros data Hd. specialize (G data Hd). unfold in_arr. destruct data as [|a b]; [cbn in Hd; congruence|].
    destruct (in_loop i true (a :: b)) as [[[d2 ok2] i2]|]; [|contradiction]. destruct G as (-> & -> & G1 & G2).
    destruct ok; [rewrite G1 by reflexivity; reflexivity|]. rewrite map_const, G2. reflexivity. }
  destruct ok.
  - destruct H5 as [H5|(ys & -> & H5)]; [contradiction|]. exists ys, i'. split; [|exact In].
    rewrite map_length in H2. split; [exact H2|]. split; [auto|]. left. exact H5.
  - destruct H5 as [_ U]. exists (repeat (nnan : f64) n), i'. split.
    + split; [apply repeat_length|]. split; [auto|]. right. split; [|exact U].
      apply Forall_forall. intros v Hv. apply repeat_spec in Hv. subst v. reflexivity.
    + intros data Hd. rewrite In by exact Hd. rewrite map_repeat'. reflexivity.
Qed.

(** ** Objects: one array after the other *)
Definition grades {F} (t : ty) (x : val F t) : list (list F) := map (slice (elems t x)) (slices t).
Fixpoint in_seq (i : istream) (l : list (list cell)) : option (list (list cell) * istream) :=
  match l with
  | [] => Some ([], i)
  | d :: r =>
      match in_arr i d with
      | None => None
      | Some (d', i') => match in_seq i' r with None => None | Some (r', i'') => Some (d' :: r', i'') end
      end
  end.
Inductive seq_post : istream -> list nat -> list (list f64) -> istream -> Prop :=
| sp_nil : forall i, seq_post i [] [] i
| sp_cons : forall i n ys i1 ns yss i', arr_post n i ys i1 -> seq_post i1 ns yss i' -> seq_post i (n :: ns) (ys :: yss) i'.
Lemma seq_ok : forall ns i, Forall (fun n => n <> 0%nat) ns -> exists yss i', seq_post i ns yss i' /\
  forall l, map (@length cell) l = ns -> in_seq i l = Some (map (map Some) yss, i').
Proof.
  induction ns as [|n ns IH]; intros i Hn.
  - exists [], i. split; [constructor|]. intros [|d l] Hl; [reflexivity|discriminate].
  - inversion Hn as [|? ? Hn1 Hn2]; subst. destruct (arr_ok n i Hn1) as (ys & i1 & A & B).
    destruct (IH i1 Hn2) as (yss & i' & C & D). exists (ys :: yss), i'. split; [econstructor; eassumption|].
    intros [|d l] Hl; [discriminate|]. cbn in Hl. inversion Hl; subst. cbn [in_seq]. rewrite B by reflexivity. rewrite D by reflexivity.
    reflexivity.
Qed.
Lemma sizes_pos : forall t, Forall (fun n => n <> 0%nat) (grade_sizes t).
Proof. intros t. destruct t; repeat constructor; discriminate. Qed.
Lemma grade_lengths : forall {F} t (x : val F t), map (@length F) (grades t x) = grade_sizes t.
Proof. intros F t x. destruct t; repeat match goal with x : _ |- _ => destruct x end; reflexivity. Qed.
Lemma grades_concat : forall {F} t (x : val F t), concat (grades t x) = elems t x.
Proof. intros F t x. destruct t; repeat match goal with x : _ |- _ => destruct x end; reflexivity. Qed.
Ltac list_cases l :=
  let H := fresh in
  match goal with L : length l = _ |- _ =>
    repeat match type of L with
    | length ?m = 0%nat => destruct m; [clear L|discriminate]
    | length ?m = S _ => let a := fresh "a" in let m' := fresh "m" in destruct m as [|a m']; [discriminate|]; cbn [length] in L; apply eq_add_S in L
    end end.
Ltac lists_cases l :=
  match goal with L : map _ l = _ |- _ =>
    repeat match type of L with
    | map _ ?m = [] => destruct m; [clear L|discriminate]
    | map _ ?m = _ :: _ => let a := fresh "a" in let m' := fresh "m" in let E := fresh "E" in
        destruct m as [|a m']; [discriminate|]; cbn [map] in L; injection L as E L; list_cases a
    end end.
Lemma extract_seq : forall t i (x : val cell t) yss i', t <> TDub -> map (@length f64) yss = grade_sizes t ->
  in_seq i (grades t x) = Some (map (map Some) yss, i') ->
  exists y, extract t i x = Some (mapv Some t y, i') /\ grades t y = yss.
Proof.
  intros t i x yss i' Ht L H.
  destruct t; [contradiction|..]; cbn in L; lists_cases yss.
  all: repeat match goal with v : val _ _ |- _ => destruct v | v : Scalar _ |- _ => destruct v | v : Vector _ |- _ => destruct v
       | v : BiVector _ |- _ => destruct v | v : TriVector _ |- _ => destruct v
       | v : Arr1 _ |- _ => destruct v | v : Arr3 _ |- _ => destruct v end.
  all: cbv [grades slices slice elems map arr1_list arr3_list Types.at0 Types.at30 Types.at31 Types.at32 scaData vecData bivData triData spinSca spinBiv
    imspVec imspTri cplxSca cplxTri dplxVec dplxBiv mvSca mvVec mvBiv mvTri app firstn skipn fst snd] in H.
  all: cbn [in_seq] in H.
  all: repeat match type of H with context [match in_arr ?j ?d with _ => _ end] =>
      let E := fresh "E" in destruct (in_arr j d) as [[? ?]|] eqn:E; [|discriminate H] end; injection H as H; subst.
  all: cbv [extract in_Sca in_Vec in_Biv in_Tri in_Spin in_Imsp in_Cplx in_Dplx in_Mvec bind in_arr1 in_arr3 arr1_list arr3_list Types.at0 Types.at30 Types.at31 Types.at32 scaData vecData bivData triData spinSca spinBiv
    imspVec imspTri cplxSca cplxTri dplxVec dplxBiv mvSca mvVec mvBiv mvTri].
  all: repeat match goal with E : in_arr _ _ = _ |- _ => rewrite E; clear E end.
  1: exists (Sca a0).
  2: exists (Vec a0 a1 a2).
  3: exists (Biv a0 a1 a2).
  4: exists (Tri a0).
  5: exists (mkSpin (Sca a0) (Biv a1 a2 a3)).
  6: exists (mkImsp (Vec a0 a1 a2) (Tri a3)).
  7: exists (mkCplx (Sca a0) (Tri a1)).
  8: exists (mkDplx (Vec a0 a1 a2) (Biv a3 a4 a5)).
  9: exists (mkMvec (Sca a0) (Vec a1 a2 a3) (Biv a4 a5 a6) (Tri a7)).
  all: split; reflexivity.
Qed.

Lemma seq_lengths : forall i ns yss i', seq_post i ns yss i' -> map (@length f64) yss = ns.
Proof. intros i ns yss i' H. induction H as [|i n ys i1 ns yss i' A H IH]; [reflexivity|]. cbn. f_equal; [apply A|exact IH]. Qed.
Lemma total_concat : forall (yss : list (list f64)) ns, map (@length f64) yss = ns -> length (concat yss) = total ns.
Proof. intros yss ns <-. induction yss; [reflexivity|]. cbn. rewrite app_length, IHyss. reflexivity. Qed.
(** A grade is all there or all NaN. *)
Lemma seq_each : forall i ns yss i', seq_post i ns yss i' ->
  Forall (fun ys => Forall valid_number ys \/ Forall (fun v => is_nan v = true) ys) yss.
Proof.
  intros i ns yss i' H. induction H as [|i n ys i1 ns yss i' A H IH]; constructor; [|exact IH].
  destruct A as (_ & _ & [A|A]); [left; apply A|right; apply A].
Qed.
Lemma seq_fail : forall i ns yss i', seq_post i ns yss i' -> is_fail i = true ->
  is_fail i' = true /\ Forall (Forall (fun v => is_nan v = true)) yss.
Proof.
  intros i ns yss i' H. induction H as [|i n ys i1 ns yss i' (A1 & A2 & A3) H IH]; intros F; [auto|].
  destruct (IH (A2 ltac:(rewrite F; apply orb_true_r))) as [B C]. split; [exact B|]. constructor; [|exact C].
  destruct A3 as [(A & _)|[A _]]; [congruence|exact A].
Qed.
Lemma unable_app : forall n i m vs r, unable n i -> is_fail i = false -> length vs = (n + m)%nat -> Forall valid_number vs ->
  ~ reads_all (rtext i) vs r.
Proof.
  intros n i m vs r [U|U] F L V H; [congruence|].
  rewrite <- (firstn_skipn n vs) in H, V. apply reads_all_split in H. destruct H as (k & H & _).
  apply Forall_app in V. refine (U (firstn n vs) k _ (proj1 V) H). rewrite firstn_length. lia.
Qed.
(** If the numbers can be read, they are. *)
Lemma seq_complete : forall i ns yss i', seq_post i ns yss i' -> is_fail i = false ->
  forall vs rest, reads_all (rtext i) vs rest -> Forall valid_number vs -> length vs = total ns ->
  concat yss = vs /\ rtext i' = rest /\ is_fail i' = false.
Proof.
  intros i ns yss i' H. induction H as [|i n ys i1 ns yss i' (A1 & A2 & A3) H IH]; intros F vs rest R V L.
  - destruct vs; [|discriminate]. inversion R; subst. auto.
  - cbn [total fold_right] in L. fold (total ns) in L. destruct A3 as [(_ & B1 & B2 & B3 & _)|[_ U]].
    + rewrite <- (firstn_skipn n vs) in R, V. apply reads_all_split in R. destruct R as (m & R1 & R2).
      apply Forall_app in V. destruct V as [V1 V2].
      destruct (reads_all_det _ _ _ B1 _ _ R1) as [E1 E2]; [rewrite firstn_length; lia|]. subst m.
      destruct (IH B3 _ _ R2 V2) as (C1 & C2 & C3); [rewrite skipn_length; lia|].
      split; [cbn; rewrite C1, E1; apply firstn_skipn|]. auto.
    + exfalso. exact (unable_app _ _ _ _ _ U F L V R).
Qed.
(** Only numbers read are there. *)
Lemma seq_sound : forall i ns yss i', seq_post i ns yss i' -> Forall (fun n => n <> 0%nat) ns ->
  Forall valid_number (concat yss) -> ns <> [] ->
  is_fail i = false /\ reads_all (rtext i) (concat yss) (rtext i') /\ is_fail i' = false /\ is_eof i' = nilb (is_text i').
Proof.
  intros i ns yss i' H. induction H as [|i n ys i1 ns yss i' (A1 & A2 & A3) H IH]; intros P V N; [contradiction|].
  inversion P as [|? ? P1 P2]; subst. cbn [concat] in V. apply Forall_app in V. destruct V as [V1 V2].
  destruct A3 as [(F & B1 & B2 & B3 & B4)|[B _]].
  - split; [exact F|]. destruct ns as [|n2 ns].
    + inversion H; subst. cbn [concat]. rewrite app_nil_r. auto.
    + destruct (IH P2 V2) as (C1 & C2 & C3 & C4); [discriminate|]. repeat split; auto. cbn [concat].
      eapply reads_all_app; eassumption.
  - exfalso. destruct ys as [|y ys]; [contradiction|]. inversion B; subst. inversion V1 as [|? ? [W _] _]; subst.
    destruct y; discriminate.
Qed.
(** The grades before the first that cannot be read. *)
Lemma seq_prefix : forall i ns yss i', seq_post i ns yss i' -> is_fail i = false ->
  forall k vs rest, reads_all (rtext i) vs rest -> Forall valid_number vs -> length vs = total (firstn k ns) ->
  concat (firstn k yss) = vs.
Proof.
  intros i ns yss i' H. induction H as [|i n ys i1 ns yss i' (A1 & A2 & A3) H IH]; intros F [|k] vs rest R V L;
    cbn [firstn total fold_right concat] in *; try (destruct vs; [reflexivity|discriminate]).
  fold (total (firstn k ns)) in L. destruct A3 as [(_ & B1 & B2 & B3 & _)|[_ U]].
  - rewrite <- (firstn_skipn n vs) in R, V. apply reads_all_split in R. destruct R as (m & R1 & R2).
    apply Forall_app in V. destruct V as [V1 V2].
    destruct (reads_all_det _ _ _ B1 _ _ R1) as [E1 E2]; [rewrite firstn_length; lia|]. subst m.
    rewrite (IH B3 k _ _ R2 V2); [rewrite E1; apply firstn_skipn|]. rewrite skipn_length; lia.
  - exfalso. exact (unable_app _ _ _ _ _ U F L V R).
Qed.
(** The first grade that cannot be read. *)
Lemma seq_failing : forall i ns yss i', seq_post i ns yss i' -> is_fail i = false ->
  forall k vs rest, reads_all (rtext i) vs rest -> Forall valid_number vs -> length vs = total (firstn k ns) ->
  (forall vs' rest', reads_all (rtext i) vs' rest' -> Forall valid_number vs' -> length vs' <> total (firstn (S k) ns)) ->
  Forall (fun v => is_nan v = true) (nth k yss []).
Proof.
  intros i ns yss i' H. induction H as [|i n ys i1 ns yss i' (A1 & A2 & A3) H IH]; intros F [|k] vs rest R V L N;
    try (destruct k; constructor); try constructor; cbn [nth].
  - destruct A3 as [(_ & B1 & B2 & _ & _)|[B _]]; [|exact B]. exfalso.
    apply (N _ _ B1 B2). rewrite A1. cbn. lia.
  - cbn [firstn total fold_right] in L, N. fold (total (firstn k ns)) in L. destruct A3 as [(_ & B1 & B2 & B3 & _)|[_ U]].
    + rewrite <- (firstn_skipn n vs) in R, V. apply reads_all_split in R. destruct R as (m & R1 & R2).
      apply Forall_app in V. destruct V as [V1 V2].
      destruct (reads_all_det _ _ _ B1 _ _ R1) as [E1 E2]; [rewrite firstn_length; lia|]. subst m.
      apply (IH B3 k _ _ R2 V2); [rewrite skipn_length; lia|]. intros vs' rest' R' V' L'.
      refine (N (ys ++ vs') rest' _ _ _).
      * eapply reads_all_app; eassumption.
      * apply Forall_app. auto.
      * rewrite app_length, A1, L'. reflexivity.
    + exfalso. exact (unable_app _ _ _ _ _ U F L V R).
Qed.

(** ** Objects *)
Lemma grades_inj : forall {F} t (x y : val F t), grades t x = grades t y -> x = y.
Proof.
  intros F t x y H. destruct t; repeat match goal with v : val _ _ |- _ => destruct v | v : Scalar _ |- _ => destruct v | v : Vector _ |- _ => destruct v
       | v : BiVector _ |- _ => destruct v | v : TriVector _ |- _ => destruct v
       | v : Arr1 _ |- _ => destruct v | v : Arr3 _ |- _ => destruct v end;
  cbv in H; inversion H; subst; reflexivity.
Qed.
Lemma extract_post : forall t i, t <> TDub -> exists y i',
  (forall x, extract t i x = Some (mapv Some t y, i')) /\ seq_post i (grade_sizes t) (grades t y) i'.
Proof.
  intros t i Ht. destruct (seq_ok (grade_sizes t) i (sizes_pos t)) as (yss & i' & P & Q).
  assert (E : forall x, exists y, extract t i x = Some (mapv Some t y, i') /\ grades t y = yss).
  { intros x. apply extract_seq; [exact Ht|apply (seq_lengths _ _ _ _ P)|]. apply Q, grade_lengths. }
  assert (X : exists x : val cell t, True).
  { exists (mapv (fun _ => None) t (Const.zero t : val f64 t)). trivial. }
  destruct X as [x0 _]. destruct (E x0) as (y & _ & Hy). exists y, i'. split; [|rewrite Hy; exact P].
  intros x. destruct (E x) as (y' & E1 & E2). replace y with y'; [exact E1|]. apply grades_inj. congruence.
Qed.
Lemma mapv_inj : forall {F} t (x y : val F t), mapv Some t x = mapv Some t y -> x = y.
Proof.
  intros F t x y H. destruct t; repeat match goal with v : val _ _ |- _ => destruct v | v : Scalar _ |- _ => destruct v | v : Vector _ |- _ => destruct v
       | v : BiVector _ |- _ => destruct v | v : TriVector _ |- _ => destruct v
       | v : Arr1 _ |- _ => destruct v | v : Arr3 _ |- _ => destruct v end;
  cbv in H; inversion H; subst; reflexivity.
Qed.
Lemma extract_unique : forall t i x y i', t <> TDub -> extract t i x = Some (mapv Some t y, i') ->
  seq_post i (grade_sizes t) (grades t y) i'.
Proof.
  intros t i x y i' Ht H. destruct (extract_post t i Ht) as (y2 & i2 & A & B). rewrite A in H. inversion H as [[H1 H2]].
  apply mapv_inj in H1. subst. exact B.
Qed.

(** C43 *)
Lemma extract_initialised : forall t i, t <> TDub -> exists y i', forall x, extract t i x = Some (mapv Some t y, i').
Proof. intros t i Ht. destruct (extract_post t i Ht) as (y & i' & A & _). exists y, i'. exact A. Qed.
Lemma total_elems : forall t (y : val f64 t), length (elems t y) = total (grade_sizes t).
Proof. intros t y. rewrite <- (grades_concat t y). apply total_concat, grade_lengths. Qed.
Lemma each_grade : forall t i x y i', t <> TDub -> extract t i x = Some (mapv Some t y, i') ->
  Forall (fun p => Forall valid_number (slice (elems t y) p) \/
                   Forall (fun v => is_nan v = true) (slice (elems t y) p)) (slices t).
Proof.
  intros t i x y i' Ht H. apply extract_unique in H; [|exact Ht]. apply seq_each in H. unfold grades in H.
  rewrite Forall_map in H. exact H.
Qed.
Lemma first_hd : forall {F} (P : F -> Prop) (d : F) t (y : val F t),
  Forall (fun i => P (nth i (elems t y) d)) (first_of_grade t) ->
  Forall (fun ys => ys <> [] /\ P (hd d ys)) (grades t y).
Proof.
  intros F P d t y V. destruct t; repeat match goal with v : val _ _ |- _ => destruct v | v : Scalar _ |- _ => destruct v | v : Vector _ |- _ => destruct v
       | v : BiVector _ |- _ => destruct v | v : TriVector _ |- _ => destruct v
       | v : Arr1 _ |- _ => destruct v | v : Arr3 _ |- _ => destruct v end;
  unfold grades; cbn in V |- *; repeat match goal with X : Forall _ (_ :: _) |- _ => inversion X; clear X; subst end;
  repeat constructor; try discriminate; assumption.
Qed.
Lemma valid_is_all : forall t i x y i', t <> TDub -> extract t i x = Some (mapv Some t y, i') ->
  isValid t y = true -> all_valid t y.
Proof.
  intros t i x y i' Ht H V. apply extract_unique in H; [|exact Ht]. apply seq_each in H.
  apply isValid_first in V.
  assert (K : Forall (fun ys => ys <> [] /\ valid_number (hd B754_nan ys)) (grades t y)).
  { apply (first_hd valid_number), V. }
  unfold all_valid. rewrite <- grades_concat. induction (grades t y) as [|ys yss IH]; [constructor|].
  inversion H as [|? ? H1 H2]; inversion K as [|? ? [K0 K1] K2]; subst. cbn [concat]. apply Forall_app. split; [|auto].
  destruct H1 as [H1|H1]; [exact H1|]. destruct ys as [|v ys]; [contradiction|]. cbn in K1. inversion H1; subst.
  destruct K1 as [K1 _]. destruct v; discriminate.
Qed.
Lemma extract_reads : forall t s vs rest, t <> TDub -> reads_all s vs rest -> Forall valid_number vs ->
  length vs = total (grade_sizes t) ->
  exists y, elems t y = vs /\ isValid t y = true /\ forall x,
    extract t (mkIs s false false) x = Some (mapv Some t y, mkIs rest (nilb rest) false).
Proof.
  intros t s vs rest Ht R V L. destruct (extract_post t (mkIs s false false) Ht) as (y & i' & A & B).
  destruct (seq_complete _ _ _ _ B eq_refl vs rest R V L) as (C1 & C2 & C3).
  rewrite grades_concat in C1. exists y. split; [exact C1|].
  assert (AV : all_valid t y) by (unfold all_valid; rewrite C1; exact V).
  split; [apply all_valid_isValid, AV|]. intros x. rewrite A. do 2 f_equal.
  destruct (seq_sound _ _ _ _ B (sizes_pos t)) as (_ & _ & _ & E).
  - rewrite grades_concat. exact AV.
  - destruct t; discriminate.
  - destruct i' as [s' e' f']. unfold rtext in C2. cbn [is_eof is_text is_fail] in *. subst. destruct s'; reflexivity.
Qed.
Lemma extract_only : forall t s x y i', t <> TDub -> extract t (mkIs s false false) x = Some (mapv Some t y, i') ->
  isValid t y = true -> all_valid t y /\ reads_all s (elems t y) (is_text i') /\ is_fail i' = false /\ is_eof i' = nilb (is_text i').
Proof.
  intros t s x y i' Ht H V. pose proof (valid_is_all _ _ _ _ _ Ht H V) as AV. apply extract_unique in H; [|exact Ht].
  destruct (seq_sound _ _ _ _ H (sizes_pos t)) as (_ & R & F & E).
  - rewrite grades_concat. exact AV.
  - destruct t; discriminate.
  - rewrite grades_concat in R. split; [exact AV|]. split; [|auto]. unfold rtext in R. cbn [is_eof is_text] in R.
    rewrite E in R. destruct (is_text i'); exact R.
Qed.
Lemma extract_prefix : forall t s x y i' k vs rest, t <> TDub ->
  extract t (mkIs s false false) x = Some (mapv Some t y, i') ->
  reads_all s vs rest -> Forall valid_number vs -> length vs = total (firstn k (grade_sizes t)) ->
  firstn (length vs) (elems t y) = vs.
Proof.
  intros t s x y i' k vs rest Ht H R V L. apply extract_unique in H; [|exact Ht].
  pose proof (seq_prefix _ _ _ _ H eq_refl k vs rest R V L) as P.
  rewrite <- grades_concat, <- (firstn_skipn k (grades t y)), concat_app, P, firstn_app, Nat.sub_diag, firstn_all, firstn_O.
  apply app_nil_r.
Qed.
Lemma extract_dead : forall t i x y i', t <> TDub -> is_eof i = true \/ is_fail i = true ->
  extract t i x = Some (mapv Some t y, i') -> all_nan t y /\ is_fail i' = true.
Proof.
  intros t i x y i' Ht D H. apply extract_unique in H; [|exact Ht].
  assert (F : is_fail i' = true /\ Forall (Forall (fun v => is_nan v = true)) (grades t y)).
  { destruct (is_fail i) eqn:Fi; [apply (seq_fail _ _ _ _ H Fi)|]. destruct D as [D|D]; [|congruence].
    inversion H as [A1 A2 A3|? ? ys i1 ns yss ? (_ & A2 & A3) B C1 C2 C3]; subst.
    - destruct t; discriminate.
    - destruct (seq_fail _ _ _ _ B) as [E1 E2]; [apply A2; rewrite D; reflexivity|]. split; [exact E1|]. constructor; [|exact E2].
      destruct A3 as [(_ & R & _)|[N _]]; [|exact N]. unfold rtext in R. rewrite D in R. inversion R as [|? ? ? ? ? Z]; subst; [constructor|].
      exfalso. exact (reads_nil _ _ Z). }
  destruct F as [F N]. split; [|exact F]. unfold all_nan. rewrite <- grades_concat. clear H.
  induction N as [|ys yss N1 N2 IH]; [constructor|]. cbn [concat]. apply Forall_app. split; [exact N1|exact IH].
Qed.

(** The first grade whose numbers cannot all be read is NaN. *)
Lemma extract_failing : forall t s x y i' k vs rest, t <> TDub ->
  extract t (mkIs s false false) x = Some (mapv Some t y, i') ->
  reads_all s vs rest -> Forall valid_number vs -> length vs = total (firstn k (grade_sizes t)) ->
  (forall vs' rest', reads_all s vs' rest' -> Forall valid_number vs' -> length vs' <> total (firstn (S k) (grade_sizes t))) ->
  Forall (fun v => is_nan v = true) (slice (elems t y) (nth k (slices t) (0%nat, 0%nat))).
Proof.
  intros t s x y i' k vs rest Ht H R V L N. apply extract_unique in H; [|exact Ht].
  pose proof (seq_failing _ _ _ _ H eq_refl k vs rest R V L N) as G. unfold grades in G.
  destruct (Nat.lt_ge_cases k (length (slices t))) as [K|K].
  - rewrite nth_indep with (d' := slice (elems t y) (0%nat, 0%nat)) in G by (rewrite map_length; exact K).
    rewrite map_nth in G. exact G.
  - rewrite (nth_overflow _ _ K). constructor.
Qed.

Lemma grade_count : forall t, firstn (length (slices t)) (grade_sizes t) = grade_sizes t.
Proof. intros t. destruct t; reflexivity. Qed.
Lemma extract_iff : forall t s x y i', t <> TDub -> extract t (mkIs s false false) x = Some (mapv Some t y, i') ->
  (isValid t y = true <-> exists vs rest, readable t (length (slices t)) s vs rest) /\
  (forall vs rest, readable t (length (slices t)) s vs rest -> elems t y = vs /\ i' = mkIs rest (nilb rest) false).
Proof.
  intros t s x y i' Ht H. unfold readable. rewrite grade_count. split; [split|].
  - intros V. destruct (extract_only _ _ _ _ _ Ht H V) as (A & B & _). exists (elems t y), (is_text i').
    repeat split; auto. apply total_elems.
  - intros (vs & rest & R & V & L). destruct (extract_reads t s vs rest Ht R V L) as (y2 & E & G & X).
    rewrite X in H. inversion H as [[H1 H2]]. apply mapv_inj in H1. subst. exact G.
  - intros vs rest (R & V & L). destruct (extract_reads t s vs rest Ht R V L) as (y2 & E & G & X).
    rewrite X in H. inversion H as [[H1 H2]]. apply mapv_inj in H1. subst. auto.
Qed.
(** Grade by grade. *)
Lemma extract_grades : forall t s x y i' k, t <> TDub -> extract t (mkIs s false false) x = Some (mapv Some t y, i') ->
  (forall vs rest, readable t k s vs rest -> firstn (length vs) (elems t y) = vs /\
    ((forall vs' rest', ~ readable t (S k) s vs' rest') ->
     Forall (fun v => is_nan v = true) (slice (elems t y) (nth k (slices t) (0%nat, 0%nat))))).
Proof.
  intros t s x y i' k Ht H vs rest (R & V & L). split; [eapply extract_prefix; eassumption|]. intros N.
  eapply extract_failing; try eassumption. intros vs' rest' R' V' L'. apply (N vs' rest'). repeat split; assumption.
Qed.
