(** * Output of objects: proofs. *)

Require Import Reals ZArith List Bool Ascii Lra Lia.
From Flocq Require Import Core BinarySingleNaN.
Require Import Verif.Types Verif.B64 Verif.Stream Verif.Io Verif.SpecCompare Verif.SpecText Verif.SpecIo Verif.TextFacts Verif.ParseFacts
  Verif.NumText Verif.InFacts.
Import ListNotations.
Local Open Scope Z_scope.

(** ** Words *)
Lemma words_white : forall c b, white c -> words (c :: b) = words b.
Proof. intros c b H. unfold words. cbn [words_from]. destruct (white_dec c); [reflexivity|contradiction]. Qed.
Lemma words_blanks : forall l b, Forall white l -> words (l ++ b) = words b.
Proof. intros l b H. induction H as [|c l Hc H IH]; [reflexivity|]. cbn [app]. rewrite words_white by exact Hc. exact IH. Qed.
Lemma words_from_app : forall a cur c b, white c -> words_from cur (a ++ c :: b) = words_from cur a ++ words b.
Proof.
  induction a as [|x a IH]; intros cur c b H; cbn [app words_from].
  - destruct (white_dec c); [|contradiction]. destruct cur; reflexivity.
  - destruct (white_dec x); [|apply IH, H]. destruct cur; cbn [app]; rewrite IH by exact H; reflexivity.
Qed.
Lemma words_app : forall a c b, white c -> words (a ++ c :: b) = words a ++ words b.
Proof. intros a c b H. apply words_from_app, H. Qed.
(** [b] begins with white space, or is empty. *)
Lemma words_opens : forall a b, opens b -> words (a ++ b) = words a ++ words b.
Proof.
  intros a [|c b] H; [rewrite !app_nil_r; reflexivity|]. rewrite words_app by exact H. rewrite words_white by exact H. reflexivity.
Qed.
Lemma words_one : forall tok, tok <> [] -> Forall (fun c => ~ white c) tok -> words tok = [tok].
Proof.
  intros tok N H. unfold words.
  assert (G : forall cur, cur ++ tok <> [] -> words_from cur tok = [cur ++ tok]).
  { clear N. induction H as [|c tok Hc H IH]; intros cur N; cbn [words_from].
    - rewrite app_nil_r in *. destruct cur; [contradiction|reflexivity].
    - destruct (white_dec c); [contradiction|]. rewrite IH; rewrite <- app_assoc; [reflexivity|]. destruct cur; discriminate. }
  apply (G []). exact N.
Qed.
Lemma sp_white : white c_space.
Proof. left. reflexivity. Qed.
Lemma repeat_white : forall c n, white c -> Forall white (repeat c n).
Proof. intros c n H. apply Forall_forall. intros x Hx. apply repeat_spec in Hx. subst. exact H. Qed.

(** ** Number texts are words *)
Lemma not_white : forall c, is_space c = false -> ~ white c.
Proof. intros c H W. apply space_white in W. congruence. Qed.
Lemma digit_chars_word : forall s, Forall (fun c => is_digit c = true) s -> Forall (fun c => ~ white c) s.
Proof. intros s H. eapply Forall_impl; [|exact H]. intros c Hc. apply not_white, digit_nospace, Hc. Qed.
Lemma numeral_word : forall n, proper n -> Forall (fun c => ~ white c) (numeral_text n).
Proof.
  assert (S : forall s, Forall (fun c => ~ white c) (sign_chars s)).
  { intros [[]|]; repeat constructor; apply not_white; reflexivity. }
  intros [sg ip fp ex] (P1 & P2 & _ & P4). unfold numeral_text, frac_digits in *. cbn [nm_sign nm_int nm_frac nm_exp] in *.
  apply Forall_app. split; [apply S|]. apply Forall_app. split; [apply digit_chars_word, text_isdigit, P1|].
  apply Forall_app. split.
  - destruct fp as [f|]; [|constructor]. constructor; [apply not_white; reflexivity|]. apply digit_chars_word, text_isdigit, P2.
  - destruct ex as [[[u s] ds]|]; [|constructor]. constructor; [destruct u; apply not_white; reflexivity|].
    apply Forall_app. split; [apply S|]. apply digit_chars_word, text_isdigit, P4.
Qed.
Lemma special_word : forall s l, Forall (fun c => is_space c = false) l -> Forall (fun c => ~ white c) (sign_chars (minus_if s) ++ l).
Proof.
  intros s l H. apply Forall_app. split.
  - destruct s; repeat constructor. apply not_white. reflexivity.
  - eapply Forall_impl; [|exact H]. intros c. apply not_white.
Qed.
Lemma special_nonempty : forall (s l : text), l <> [] -> s ++ l <> [].
Proof. intros s l H X. apply app_eq_nil in X. apply H, X. Qed.
Lemma numeral_nonempty : forall n, proper n -> numeral_text n <> [].
Proof. intros n P. apply (numeral_head n [] P). Qed.
Lemma fixed_word : forall nn p x tok, shows_fixed nn p x tok -> words tok = [tok].
Proof.
  intros nn p x tok H. apply words_one.
  - destruct x as [s|s| |s m e B]; cbn in H; try (subst tok; apply special_nonempty; discriminate);
      destruct H as (n & -> & P & _); apply numeral_nonempty, P.
  - destruct x as [s|s| |s m e B]; cbn in H; try (subst tok; apply special_word; repeat constructor);
      destruct H as (n & -> & P & _); apply numeral_word, P.
Qed.
Lemma sci_word : forall nn p x tok, shows_sci nn p x tok -> words tok = [tok].
Proof.
  intros nn p x tok H. apply words_one.
  - destruct x as [s|s| |s m e B]; cbn in H; try (subst tok; apply special_nonempty; discriminate);
      destruct H as (n & ? & ? & -> & P & _); apply numeral_nonempty, P.
  - destruct x as [s|s| |s m e B]; cbn in H; try (subst tok; apply special_word; repeat constructor);
      destruct H as (n & ? & ? & -> & P & _); apply numeral_word, P.
Qed.

(** ** Shapes *)
Section Shape.
Context (nn : bool).
Definition padf (w : Z) (s : text) : text := repeat c_space (Z.to_nat (w - Z.of_nat (length s))) ++ s.
Definition ftok (a : Z) (x : f64) : text := num_text nn fixed_nt (to_int a) x.
Definition stok (a : Z) (x : f64) : text := num_text nn scientific (to_int a) x.
Definition ffield (b a : Z) (x : f64) : text := c_space :: padf (to_int (fieldWide (mkFmt b a))) (ftok a x).
Definition sfield (a : Z) (x : f64) : text := padf (to_int (to_size (7 + a))) (stok a x).
Definition plain (os : ostream) : Prop := os_width os = 0 /\ os_fill os = c_space /\ os_left os = false.

Lemma put_plain : forall os s, os_width os <= 0 -> os_out (put_text os s) = os_out os ++ s /\ os_width (put_text os s) = 0.
Proof.
  intros os s H. unfold put_text. cbn [os_out os_width]. split; [|reflexivity]. f_equal. unfold padded.
  replace (Z.to_nat (os_width os - Z.of_nat (length s))) with 0%nat by lia. cbn [repeat app]. rewrite app_nil_r. destruct (os_left os); reflexivity.
Qed.
Lemma put_join : forall {A} (g : A -> text) l os, os_width os <= 0 ->
  os_out (fold_left (fun oss x => put_text oss (g x)) l os) = os_out os ++ concat (map g l).
Proof.
  intros A g l. induction l as [|x l IH]; intros os H; cbn [fold_left map concat]; [rewrite app_nil_r; reflexivity|].
  destruct (put_plain os (g x) H) as [E W]. rewrite IH by lia. rewrite E, app_assoc. reflexivity.
Qed.
Lemma join_concat : forall l, join l = concat l.
Proof. intros l. unfold join. change put_text with (fun oss x => put_text oss ((fun y => y) x)). rewrite put_join by (cbn; lia). rewrite map_id. reflexivity. Qed.
Lemma prep_fixed : forall fmt os x, plain os ->
  os_out (put_num nn (prepareFixed fmt os) x) = os_out os ++ ffield (theNumDigLead fmt) (theNumDigFrac fmt) x /\
  plain (put_num nn (prepareFixed fmt os) x).
Proof.
  intros [b a] os x (W & F & L). destruct (put_plain os [c_space]) as [E1 E2]; [lia|].
  unfold put_num, prepareFixed, set_width, set_precision, set_notation. cbn [os_nt os_prec theNumDigFrac theNumDigLead].
  split.
  - unfold put_text at 1. cbn [os_out]. rewrite E1, <- app_assoc. f_equal. unfold padded. cbn [os_left os_width os_fill put_text].
    rewrite L, F. reflexivity.
  - unfold plain. cbn. auto.
Qed.
Lemma fixed_Dub_field : forall x b a, fixed_Dub nn x b a = ffield b a x.
Proof. intros x b a. unfold fixed_Dub. rewrite (proj1 (prep_fixed (mkFmt b a) os_new x ltac:(repeat split))). reflexivity. Qed.
Lemma fixed_blade_fields : forall els b a, fixed_blade nn els b a = concat (map (ffield b a) els).
Proof.
  intros els b a. unfold fixed_blade. rewrite (put_join (fun x => fixed_Dub nn x b a)) by (cbn; lia). cbn [os_out os_new app].
  rewrite (map_ext _ (ffield b a)); [reflexivity|]. intros x. apply fixed_Dub_field.
Qed.
Lemma put_arr_fields : forall els os fmt, put_arr nn os els fmt =
  put_text os (concat (map (ffield (theNumDigLead fmt) (theNumDigFrac fmt)) els)).
Proof.
  intros els os fmt. unfold put_arr. f_equal.
  assert (G : forall os, plain os -> os_out (fold_left (fun oss x => put_num nn (prepareFixed fmt oss) x) els os) =
    os_out os ++ concat (map (ffield (theNumDigLead fmt) (theNumDigFrac fmt)) els)).
  { induction els as [|x els IH]; intros o P; cbn [fold_left map concat]; [rewrite app_nil_r; reflexivity|].
    destruct (prep_fixed fmt o x P) as [E Q]. rewrite IH by exact Q. rewrite E, app_assoc. reflexivity. }
  rewrite G by (repeat split). reflexivity.
Qed.
Lemma prep_enote : forall a os x, plain os ->
  os_out (put_num nn (prepareEnote os a) x) = os_out os ++ sfield a x /\ plain (put_num nn (prepareEnote os a) x).
Proof.
  intros a os x (W & F & L). unfold put_num, prepareEnote, set_width, set_precision, set_notation. cbn [os_nt os_prec]. split.
  - unfold put_text. cbn [os_out]. f_equal. unfold padded. cbn [os_left os_width os_fill]. rewrite L, F. reflexivity.
  - unfold plain. cbn. auto.
Qed.
Lemma enote_Dub_field : forall x a, enote_Dub nn x a = sfield a x.
Proof. intros x a. unfold enote_Dub. rewrite (proj1 (prep_enote a os_new x ltac:(repeat split))). reflexivity. Qed.
Lemma enote_blade_fields : forall els a, enote_blade nn els a = intercalate [c_space] (map (sfield a) els).
Proof.
  intros [|x r] a; [reflexivity|]. unfold enote_blade.
  assert (G : forall r os, plain os -> os_out (fold_left
        (fun oss y => put_num nn (prepareEnote (put_text oss [c_space]) a) y) r os) =
      os_out os ++ concat (map (fun y => c_space :: sfield a y) r)).
  { clear. induction r as [|y r IH]; intros os P; cbn [fold_left map concat]; [rewrite app_nil_r; reflexivity|].
    assert (P2 : plain (put_text os [c_space])) by (destruct P as (_ & P); split; [reflexivity|exact P]).
    destruct (prep_enote a _ y P2) as [E Q]. rewrite IH by exact Q. rewrite E.
    rewrite (proj1 (put_plain os [c_space] ltac:(destruct P; lia))). rewrite <- !app_assoc. reflexivity. }
  destruct (prep_enote a os_new x ltac:(repeat split)) as [E Q]. rewrite G by exact Q. rewrite E. cbn [os_out os_new app].
  clear. revert x. induction r as [|y r IH]; intros x; [apply app_nil_r|].
  change (intercalate [c_space] (map (sfield a) (x :: y :: r)))
    with (sfield a x ++ [c_space] ++ intercalate [c_space] (map (sfield a) (y :: r))).
  rewrite <- IH. reflexivity.
Qed.

(** ** Objects *)
Lemma fixed_layout : forall t f, fixed nn t = Some f -> forall x b a,
  f x b a = layout [] gap t (map (ffield b a) (elems t x)).
Proof.
  intros t f H x b a. destruct t; cbn in H; inversion H; subst f; clear H;
  repeat match goal with v : val _ _ |- _ => destruct v | v : Scalar _ |- _ => destruct v | v : Vector _ |- _ => destruct v
       | v : BiVector _ |- _ => destruct v | v : TriVector _ |- _ => destruct v
       | v : Arr1 _ |- _ => destruct v | v : Arr3 _ |- _ => destruct v end.
  all: unfold fixed_Spin, fixed_Imsp, fixed_Mvec; rewrite ?join_concat, ?fixed_Dub_field, ?fixed_blade_fields;
    cbv [elems arr1_list arr3_list Types.at0 Types.at30 Types.at31 Types.at32 scaData vecData bivData triData spinSca spinBiv
    imspVec imspTri mvSca mvVec mvBiv mvTri layout slices slice map firstn skipn fst snd intercalate concat gap];
    repeat (cbn [app map firstn skipn concat intercalate] || rewrite <- !app_assoc || rewrite !app_nil_r); try reflexivity.
Qed.
Lemma enote_layout : forall t f, enote nn t = Some f -> forall x a,
  f x a = layout [c_space] gap t (map (sfield a) (elems t x)).
Proof.
  intros t f H x a. destruct t; cbn in H; inversion H; subst f; clear H;
  repeat match goal with v : val _ _ |- _ => destruct v | v : Scalar _ |- _ => destruct v | v : Vector _ |- _ => destruct v
       | v : BiVector _ |- _ => destruct v | v : TriVector _ |- _ => destruct v
       | v : Arr1 _ |- _ => destruct v | v : Arr3 _ |- _ => destruct v end.
  all: unfold enote_Spin, enote_Imsp, enote_Mvec; rewrite ?join_concat, ?enote_Dub_field, ?enote_blade_fields;
    cbv [elems arr1_list arr3_list Types.at0 Types.at30 Types.at31 Types.at32 scaData vecData bivData triData spinSca spinBiv
    imspVec imspTri mvSca mvVec mvBiv mvTri layout slices slice map firstn skipn fst snd concat gap];
    repeat (cbn [app map firstn skipn concat intercalate] || rewrite <- !app_assoc || rewrite !app_nil_r); try reflexivity.
Qed.
(** The field written by [operator<<]; the first grade is padded to the
    width the stream was set to. *)
Lemma insert_layout : forall t f, insert nn t = Some f -> forall x os,
  os_out (f x os) = os_out os ++
    match slices t with
    | [] => []
    | p :: r => intercalate [c_space] (padded os (concat (slice (map (ffield 3 6) (elems t x)) p)) ::
                 map (fun p => concat (slice (map (ffield 3 6) (elems t x)) p)) r)
    end.
Proof.
  intros t f H x os. destruct t; cbn in H; inversion H; subst f; clear H;
  repeat match goal with v : val _ _ |- _ => destruct v | v : Scalar _ |- _ => destruct v | v : Vector _ |- _ => destruct v
       | v : BiVector _ |- _ => destruct v | v : TriVector _ |- _ => destruct v
       | v : Arr1 _ |- _ => destruct v | v : Arr3 _ |- _ => destruct v end.
  all: unfold out_Mvec, out_Dplx, out_Cplx, out_Imsp, out_Spin, out_Sca, out_Vec, out_Biv, out_Tri, blank, out_blade;
    cbv [elems arr1_list arr3_list Types.at0 Types.at30 Types.at31 Types.at32 scaData vecData bivData triData spinSca spinBiv
    imspVec imspTri cplxSca cplxTri dplxVec dplxBiv mvSca mvVec mvBiv mvTri];
    repeat (rewrite put_arr_fields); cbn [theNumDigLead theNumDigFrac fmt_default].
  all: cbv [slices slice map firstn skipn fst snd].
  all: repeat match goal with |- context [os_out (put_text (put_text ?o ?s) ?s')] =>
    rewrite (proj1 (put_plain (put_text o s) s' (Z.le_refl 0))) end.
  all: cbn [put_text os_out].
  all: repeat (cbn [app map firstn skipn intercalate] || rewrite <- !app_assoc); try reflexivity.
Qed.
End Shape.

(** ** Words of objects *)
Lemma words_concat : forall l, Forall opens l -> words (concat l) = concat (map words l).
Proof.
  intros l H. induction H as [|x l Hx H IH]; [reflexivity|]. cbn [concat map]. rewrite words_opens, IH; [reflexivity|].
  clear IH. induction H as [|y l Hy H IH]; [exact I|]. cbn [concat]. destruct y; [exact IH|exact Hy].
Qed.
Lemma words_intercalate : forall c sep l, white c -> Forall white sep -> words (intercalate (c :: sep) l) = concat (map words l).
Proof.
  intros c sep l Hc Hs. induction l as [|x l IH]; [reflexivity|]. cbn [map concat].
  destruct l as [|y l]; [cbn [intercalate map concat]; rewrite app_nil_r; reflexivity|].
  change (intercalate (c :: sep) (x :: y :: l)) with (x ++ c :: sep ++ intercalate (c :: sep) (y :: l)).
  rewrite words_app by exact Hc. rewrite words_blanks by exact Hs. rewrite IH. reflexivity.
Qed.
Lemma map_elems : forall {A B} (g : A -> B) t (x : val A t), map g (elems t x) = elems t (mapv g t x).
Proof. intros A B g t x. destruct t; repeat match goal with x : _ |- _ => destruct x end; reflexivity. Qed.
Lemma slices_concat : forall {A B} (g : A -> B) t (x : val A t),
  concat (map (slice (map g (elems t x))) (slices t)) = map g (elems t x).
Proof. intros A B g t x. rewrite map_elems. apply (grades_concat t (mapv g t x)). Qed.
Lemma concat_concat_map : forall {A B} (g : A -> list B) (ls : list (list A)),
  concat (map (fun l => concat (map g l)) ls) = concat (map g (concat ls)).
Proof.
  intros A B g ls. induction ls as [|l ls IH]; [reflexivity|]. cbn [map concat]. rewrite IH, map_app, concat_app. reflexivity.
Qed.
Lemma words_fields : forall {A} (fld tok : A -> text) l, (forall x, In x l -> words (fld x) = [tok x]) ->
  concat (map words (map fld l)) = map tok l.
Proof.
  intros A fld tok l H. induction l as [|x l IH]; [reflexivity|]. cbn [map concat]. rewrite H by (left; reflexivity).
  rewrite IH; [reflexivity|]. intros y Hy. apply H. right. exact Hy.
Qed.
Lemma slice_forall : forall {A} (P : A -> Prop) l p, Forall P l -> Forall P (slice l p).
Proof.
  intros A P l [i n] H. unfold slice. cbn [fst snd].
  rewrite <- (firstn_skipn i l) in H. apply Forall_app in H. destruct H as [_ H].
  rewrite <- (firstn_skipn n (skipn i l)) in H. apply Forall_app in H. apply H.
Qed.
Lemma words_layout0 : forall c gap t {A} (fld tok : A -> text) (x : val A t), white c -> Forall white gap ->
  (forall v, opens (fld v) /\ words (fld v) = [tok v]) ->
  words (layout [] (c :: gap) t (map fld (elems t x))) = map tok (elems t x).
Proof.
  intros c gp t A fld tok x Hc Hg H. unfold layout. rewrite words_intercalate by assumption. rewrite map_map.
  rewrite (map_ext _ (fun p => concat (map words (slice (map fld (elems t x)) p)))).
  - rewrite <- (map_map (slice (map fld (elems t x))) (fun l => concat (map words l))).
    rewrite concat_concat_map, slices_concat. apply words_fields. intros v _. apply H.
  - intros p. transitivity (words (concat (slice (map fld (elems t x)) p))).
    + f_equal. induction (slice _ p) as [|y [|z l] IH]; [reflexivity|cbn; rewrite app_nil_r; reflexivity|].
      change (intercalate [] (y :: z :: l)) with (y ++ [] ++ intercalate [] (z :: l)). rewrite IH. reflexivity.
    + apply words_concat. apply slice_forall. apply Forall_forall. intros y Hy. apply in_map_iff in Hy. destruct Hy as (v & <- & _). apply H.
Qed.
Lemma words_layout1 : forall d sep c gap t {A} (fld tok : A -> text) (x : val A t), white d -> Forall white sep -> white c -> Forall white gap ->
  (forall v, words (fld v) = [tok v]) ->
  words (layout (d :: sep) (c :: gap) t (map fld (elems t x))) = map tok (elems t x).
Proof.
  intros d sep c gp t A fld tok x Hd Hs Hc Hg H. unfold layout. rewrite words_intercalate by assumption. rewrite map_map.
  rewrite (map_ext _ (fun p => concat (map words (slice (map fld (elems t x)) p)))).
  - rewrite <- (map_map (slice (map fld (elems t x))) (fun l => concat (map words l))).
    rewrite concat_concat_map, slices_concat. apply words_fields. intros v _. apply H.
  - intros p. apply words_intercalate; assumption.
Qed.
Lemma padf_words : forall w s, words (padf w s) = words s.
Proof. intros w s. apply words_blanks, repeat_white, sp_white. Qed.
Lemma ffield_words : forall nn b a v, opens (ffield nn b a v) /\ words (ffield nn b a v) = [ftok nn a v].
Proof.
  intros nn b a v. split; [apply sp_white|]. unfold ffield. rewrite words_white by apply sp_white. rewrite padf_words.
  eapply fixed_word, shows_fixed_ok.
Qed.
Lemma sfield_words : forall nn a v, words (sfield nn a v) = [stok nn a v].
Proof. intros nn a v. unfold sfield. rewrite padf_words. eapply sci_word, shows_sci_ok. Qed.

(** C44 *)
Definition prec_of (a : Z) : nat := Z.to_nat (if to_int a <? 0 then 6 else to_int a).
Lemma prec_small : forall a, 0 <= a < 2 ^ 31 -> Z.of_nat (prec_of a) = a.
Proof.
  intros a H. unfold prec_of, to_int. rewrite Z.mod_small by lia. replace (a + 2 ^ 31 - 2 ^ 31) with a by ring.
  destruct (Z.ltb_spec a 0); lia.
Qed.
Lemma forall2_map : forall {A B} (P : A -> B -> Prop) (g : A -> B) l, (forall x, P x (g x)) -> Forall2 P l (map g l).
Proof. intros A B P g l H. induction l; constructor; auto. Qed.
Lemma fixed_words : forall nn t f, fixed nn t = Some f -> forall x b a, exists p, (0 <= a < 2 ^ 31 -> Z.of_nat p = a) /\
  Forall2 (shows_fixed nn p) (elems t x) (words (f x b a)).
Proof.
  intros nn t f H x b a. exists (prec_of a). split; [apply prec_small|]. rewrite (fixed_layout nn t f H).
  unfold gap. rewrite (words_layout0 _ _ t _ (ftok nn a)); [|apply sp_white|repeat constructor|apply ffield_words].
  apply forall2_map. intros v. apply shows_fixed_ok.
Qed.
Lemma enote_words : forall nn t f, enote nn t = Some f -> forall x a, exists p, (0 <= a < 2 ^ 31 -> Z.of_nat p = a) /\
  Forall2 (shows_sci nn p) (elems t x) (words (f x a)).
Proof.
  intros nn t f H x a. exists (prec_of a). split; [apply prec_small|]. rewrite (enote_layout nn t f H).
  unfold gap. rewrite (words_layout1 _ _ _ _ t _ (stok nn a)); [|apply sp_white|constructor|apply sp_white|repeat constructor|apply sfield_words].
  apply forall2_map. intros v. apply shows_sci_ok.
Qed.
Lemma insert_toks : forall nn t f, insert nn t = Some f -> forall x os, white (os_fill os) \/ os_width os <= 0 ->
  exists s, os_out (f x os) = os_out os ++ s /\ words s = map (ftok nn 6) (elems t x).
Proof.
  intros nn t f H x os W. eexists. split; [apply (insert_layout nn t f H)|].
  match goal with |- words ?s = _ => assert (E : words s = words (layout [] [c_space] t (map (ffield nn 3 6) (elems t x)))) end.
  { unfold layout. destruct (slices t) as [|p r]; [reflexivity|]. cbn [map]. rewrite !words_intercalate by (try apply sp_white; constructor).
    cbn [map concat].
    assert (C : forall l : list text, intercalate [] l = concat l).
    { induction l as [|y [|z l] IH]; [reflexivity|cbn; rewrite app_nil_r; reflexivity|].
      change (intercalate [] (y :: z :: l)) with (y ++ [] ++ intercalate [] (z :: l)). rewrite IH. reflexivity. }
    rewrite !map_map. f_equal.
    - rewrite C. unfold padded. set (n := Z.to_nat _). destruct W as [W|W].
      + destruct (os_left os).
        * rewrite words_opens; [|destruct n; [exact I|exact W]]. rewrite <- (app_nil_r (repeat _ _)), words_blanks by (apply repeat_white, W).
          rewrite app_nil_r. reflexivity.
        * apply words_blanks, repeat_white, W.
      + replace n with 0%nat by lia. cbn [repeat app]. rewrite app_nil_r. destruct (os_left os); reflexivity.
    - f_equal. apply map_ext. intros q. rewrite C. reflexivity. }
  rewrite E. rewrite (words_layout0 _ _ t _ (ftok nn 6)); [|apply sp_white|constructor|apply ffield_words].
  reflexivity.
Qed.
Lemma insert_words : forall nn t f, insert nn t = Some f -> forall x os, white (os_fill os) \/ os_width os <= 0 ->
  exists s, os_out (f x os) = os_out os ++ s /\ Forall2 (shows_fixed nn 6) (elems t x) (words s).
Proof.
  intros nn t f H x os W. destruct (insert_toks nn t f H x os W) as (s & A & B). exists s. split; [exact A|]. rewrite B.
  apply forall2_map. intros v. apply (shows_fixed_ok nn 6).
Qed.

(** ** Field widths: C45 *)
Lemma digits_lower : forall ds a, 0 <= a -> a * 10 ^ Z.of_nat (length ds) <= digits_nat a ds.
Proof.
  induction ds as [|d ds IH]; intros a Ha; cbn [digits_nat length]; [cbn; lia|].
  rewrite Nat2Z.inj_succ, Z.pow_succ_r by lia. eapply Z.le_trans; [|apply IH; lia].
  rewrite Z.mul_assoc. apply Z.mul_le_mono_nonneg_r; [apply Z.pow_nonneg|]; lia.
Qed.
Lemma powerRZ_lt_inv : forall a b, (powerRZ 10 a < powerRZ 10 b)%R -> a < b.
Proof.
  intros a b H. destruct (Z.lt_ge_cases a b) as [L|L]; [exact L|]. exfalso. apply (Rlt_not_le _ _ H).
  replace a with (b + (a - b)) by lia. rewrite pow10_add, (pow10_Z (a - b)) by lia.
  rewrite <- (Rmult_1_r (powerRZ 10 b)) at 1. apply Rmult_le_compat_l; [apply Rlt_le, pow10_pos|].
  apply (IZR_le 1). pose proof (Z.pow_pos_nonneg 10 (a - b)). lia.
Qed.
Lemma int_digits : forall n lead, proper n -> normal_int (nm_int n) -> nm_exp n = None -> 1 <= lead ->
  (Rabs (numeral_value n) < powerRZ 10 lead)%R -> Z.of_nat (length (nm_int n)) <= lead.
Proof.
  intros n lead P N E Hl H. destruct N as [N|[N1 N2]]; [lia|].
  set (L := length (nm_int n)) in *. set (q := length (frac_digits n)).
  assert (D : 10 ^ (Z.of_nat L - 1 + Z.of_nat q) <= digits_nat 0 (nm_int n ++ frac_digits n)).
  { unfold L, q in *. destruct (nm_int n) as [|d r]; [cbn in N1; lia|]. cbn [hd] in N2. cbn [app digits_nat length].
    eapply Z.le_trans; [|apply digits_lower; lia]. rewrite app_length.
    replace (Z.of_nat (S (length r)) - 1 + Z.of_nat (length (frac_digits n))) with (Z.of_nat (length r + length (frac_digits n))) by lia.
    pose proof (p10 (length r + length (frac_digits n))). nia. }
  assert (V : Rabs (numeral_value n) = (IZR (digits_nat 0 (nm_int n ++ frac_digits n)) * powerRZ 10 (- Z.of_nat q))%R).
  { unfold numeral_value, exponent. rewrite E. rewrite !Rabs_mult, (Rabs_pos_eq (IZR _)), (Rabs_pos_eq (powerRZ _ _)).
    - replace (Rabs (if is_minus (nm_sign n) then -1 else 1)) with 1%R; [rewrite Rmult_1_l; reflexivity|].
      destruct (is_minus _); [rewrite Rabs_left|rewrite Rabs_right]; lra.
    - apply Rlt_le, pow10_pos.
    - apply IZR_le, digits_nat_nonneg. lia. }
  assert (LL : (powerRZ 10 (Z.of_nat L - 1) <= Rabs (numeral_value n))%R).
  { rewrite V. replace (Z.of_nat L - 1) with (Z.of_nat L - 1 + Z.of_nat q + - Z.of_nat q) by lia. rewrite pow10_add.
    apply Rmult_le_compat_r; [apply Rlt_le, pow10_pos|]. rewrite pow10_Z by lia. apply IZR_le, D. }
  assert (X : Z.of_nat L - 1 < lead) by (apply powerRZ_lt_inv; lra). lia.
Qed.
Lemma fixed_tok_len : forall nn p lead x tok, shows_fixed nn p x tok -> fits lead (Z.of_nat p) x ->
  Z.of_nat (length tok) <= lead + Z.of_nat p + 2.
Proof.
  intros nn p lead x tok S F.
  assert (Fin : is_finite x = true -> forall n, tok = numeral_text n -> proper n -> normal_int (nm_int n) -> point_digits p (nm_frac n) ->
      nm_exp n = None -> numeral_value n = nearest_decimal (Z.of_nat p) (B2R x) -> Z.of_nat (length tok) <= lead + Z.of_nat p + 2).
  { intros Fx n -> P N Q E V. destruct F as [(_ & F1 & F2)|[F _]]; [|congruence]. rewrite <- V in F2.
    pose proof (int_digits n lead P N E F1 F2) as L. unfold numeral_text. rewrite E, app_nil_r, !app_length. unfold digits_text. rewrite map_length.
    assert (Sg : (length (sign_chars (nm_sign n)) <= 1)%nat) by (destruct (nm_sign n) as [[]|]; cbn; lia).
    assert (Fr : (length (match nm_frac n with None => [] | Some f => "."%char :: map digit_char f end) <= p + 1)%nat).
    { unfold point_digits in Q. destruct p as [|p]; [rewrite Q; cbn; lia|]. destruct Q as (ds & -> & Q). cbn [length]. rewrite map_length. lia. }
    lia. }
  assert (Non : forall s l, (length l = 3)%nat -> is_finite x = false -> tok = sign_chars (minus_if s) ++ l -> Z.of_nat (length tok) <= lead + Z.of_nat p + 2).
  { intros s l Hl Fx ->. destruct F as [(F & _)|[_ F]]; [congruence|]. rewrite app_length, Hl. destruct s; cbn; lia. }
  destruct x as [s|s| |s m e B]; cbn [shows_fixed] in S.
  - destruct S as (n & A & P & _ & N & Q & E & V). apply (Fin eq_refl n); auto.
  - refine (Non s _ _ eq_refl S). reflexivity.
  - refine (Non nn _ _ eq_refl S). reflexivity.
  - destruct S as (n & A & P & _ & N & Q & E & V). apply (Fin eq_refl n); auto.
Qed.
Lemma to_int_small : forall n, 0 <= n < 2 ^ 31 -> to_int n = n.
Proof. intros n H. unfold to_int. rewrite Z.mod_small by lia. ring. Qed.
Lemma fixed_columns : forall nn t f, fixed nn t = Some f -> forall x b a, 0 <= b -> 0 <= a -> b + a + 2 < 2 ^ 31 ->
  exists fields, f x b a = layout [] [" "; " "]%char t fields /\
    Forall2 (fun v s => exists k tok, s = repeat " "%char (S k) ++ tok /\ shows_fixed nn (Z.to_nat a) v tok /\
                        b + a + 3 <= Z.of_nat (length s) /\ (fits b a v -> Z.of_nat (length s) = b + a + 3))
      (elems t x) fields.
Proof.
  intros nn t f H x b a Hb Ha Hw. exists (map (ffield nn b a) (elems t x)). split; [apply (fixed_layout nn t f H)|].
  apply forall2_map. intros v. unfold ffield, padf.
  assert (W : to_int (fieldWide (mkFmt b a)) = b + a + 2).
  { unfold fieldWide, to_size. cbn [theNumDigLead theNumDigFrac].
    rewrite (Z.mod_small (1 + b)) by lia. rewrite (Z.mod_small (1 + b + 1)) by lia. rewrite (Z.mod_small (1 + b + 1 + a)) by lia.
    rewrite to_int_small; lia. }
  rewrite W. set (k := Z.to_nat _). exists k, (ftok nn a v). split; [reflexivity|].
  assert (S : shows_fixed nn (Z.to_nat a) v (ftok nn a v)).
  { unfold ftok. rewrite to_int_small by lia. pose proof (shows_fixed_ok nn a v) as S. destruct (Z.ltb_spec a 0); [lia|exact S]. }
  split; [exact S|]. cbn [length]. rewrite app_length, repeat_length. split; [lia|].
  intros F. assert (L : Z.of_nat (length (ftok nn a v)) <= b + Z.of_nat (Z.to_nat a) + 2).
  { apply (fixed_tok_len nn _ _ v _ S). rewrite Z2Nat.id by exact Ha. exact F. }
  lia.
Qed.
