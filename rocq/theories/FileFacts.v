(** * Several objects in one text: proofs. *)

Require Import Reals ZArith Bool Ascii String List Lia.
From Flocq Require Import Core BinarySingleNaN.
Require Import Verif.Num Verif.Types Verif.B64 Verif.Validity Verif.Stream Verif.Io Verif.SpecValid Verif.SpecRound Verif.SpecCompare
  Verif.SpecText Verif.SpecIo Verif.ValidFacts Verif.ParseFacts Verif.InFacts Verif.OutFacts Verif.RoundTrip Verif.IoThm Verif.SpecPower Verif.PowerFacts Verif.SpecProg Verif.SpecFile.
Import ListNotations.

(** ** A successful extraction has read a number *)
Lemma numeral_nonempty : forall n, proper n -> (0 < length (numeral_text n))%nat.
Proof.
  intros n (_ & _ & N & _). unfold numeral_text, digits_text, frac_digits in *. rewrite !app_length, map_length.
  destruct (nm_int n) as [|d l]; [|cbn; lia]. destruct (nm_frac n) as [[|d l]|]; cbn in *; try contradiction; lia.
Qed.
Lemma reads_shorter : forall s x r, reads s x r -> (length r < length s)%nat.
Proof.
  intros s x r (b & n & -> & _ & P & _). rewrite !app_length. pose proof (numeral_nonempty n P). lia.
Qed.
Definition steps (i i' : istream) : Prop :=
  is_fail i = false /\ (exists v r, reads (rtext i) v r) /\ (length (rtext i') < length (rtext i))%nat.
Definition stays (i i' : istream) : Prop := is_fail i = false /\ (length (rtext i') <= length (rtext i))%nat.
Lemma loop_stays : forall data i ok d k i', in_loop i ok data = Some (d, k, i') -> is_fail i' = false ->
  stays i i' /\ (ok = true -> data <> [] -> steps i i').
Proof.
  induction data as [|c r IH]; intros i ok d k i' H F; cbn [in_loop] in H.
  - inversion H; subst. split; [split; [exact F|lia]|]. intros _ N. contradiction.
  - destruct ok; [|inversion H; subst; split; [split; [exact F|lia]|discriminate]].
    destruct (get_num i c) as [c' i1] eqn:G. destruct (isInputOkay i1 c') as [ok'|]; [|discriminate].
    destruct (in_loop i1 ok' r) as [[[r' ok2] i2]|] eqn:L; [|discriminate]. inversion H; subst.
    destruct (IH _ _ _ _ _ L F) as [[F1 L1] _]. pose proof (get_cases i c) as C. rewrite G in C. cbn [snd] in C.
    destruct C as [[_ C]|[(Fi & x & i1' & E & R & _)|(_ & C & _)]]; try congruence. inversion E; subst.
    pose proof (reads_shorter _ _ _ R) as S. split; [split; [exact Fi|lia]|]. intros _ _. split; [exact Fi|]. split; [eauto|lia].
Qed.
Lemma arr_steps : forall i data d i', in_arr i data = Some (d, i') -> is_fail i' = false -> steps i i'.
Proof.
  intros i data d i' H F. destruct data as [|c r]; [discriminate|]. cbn [in_arr] in H.
  destruct (in_loop i true (c :: r)) as [[[d' k] i1]|] eqn:L; [|discriminate]. inversion H; subst.
  apply (loop_stays _ _ _ _ _ _ L F); [reflexivity|discriminate].
Qed.
Lemma steps_trans : forall a b c, steps a b -> steps b c -> steps a c.
Proof. intros a b c (A1 & A2 & A3) (_ & _ & B3). split; [exact A1|]. split; [exact A2|lia]. Qed.
Lemma sca_steps : forall i x y i', in_Sca i x = Some (y, i') -> is_fail i' = false -> steps i i'.
Proof.
  intros i x y i' H F. unfold in_Sca, bind, in_arr1 in H. destruct (in_arr i _) as [[[|u [|]] i1]|] eqn:A; try discriminate.
  inversion H; subst. exact (arr_steps _ _ _ _ A F).
Qed.
Lemma tri_steps : forall i x y i', in_Tri i x = Some (y, i') -> is_fail i' = false -> steps i i'.
Proof.
  intros i x y i' H F. unfold in_Tri, bind, in_arr1 in H. destruct (in_arr i _) as [[[|u [|]] i1]|] eqn:A; try discriminate.
  inversion H; subst. exact (arr_steps _ _ _ _ A F).
Qed.
Lemma vec_steps : forall i x y i', in_Vec i x = Some (y, i') -> is_fail i' = false -> steps i i'.
Proof.
  intros i x y i' H F. unfold in_Vec, bind, in_arr3 in H. destruct (in_arr i _) as [[[|u [|v [|w [|]]]] i1]|] eqn:A; try discriminate.
  inversion H; subst. exact (arr_steps _ _ _ _ A F).
Qed.
Lemma biv_steps : forall i x y i', in_Biv i x = Some (y, i') -> is_fail i' = false -> steps i i'.
Proof.
  intros i x y i' H F. unfold in_Biv, bind, in_arr3 in H. destruct (in_arr i _) as [[[|u [|v [|w [|]]]] i1]|] eqn:A; try discriminate.
  inversion H; subst. exact (arr_steps _ _ _ _ A F).
Qed.
Ltac chase :=
  match goal with
  | H : bind ?o _ = Some _ |- _ => let E := fresh "E" in destruct o as [[? ?]|] eqn:E; cbn [bind] in H; [|discriminate H]; chase
  | H : Some _ = Some _ |- _ => inversion H; subst; clear H
  end.
Ltac follow :=
  match goal with
  | F : is_fail ?i' = false, E : in_Sca ?i _ = Some (_, ?i') |- _ => pose proof (sca_steps _ _ _ _ E F); clear E
  | F : is_fail ?i' = false, E : in_Vec ?i _ = Some (_, ?i') |- _ => pose proof (vec_steps _ _ _ _ E F); clear E
  | F : is_fail ?i' = false, E : in_Biv ?i _ = Some (_, ?i') |- _ => pose proof (biv_steps _ _ _ _ E F); clear E
  | F : is_fail ?i' = false, E : in_Tri ?i _ = Some (_, ?i') |- _ => pose proof (tri_steps _ _ _ _ E F); clear E
  | S : steps ?i _ |- _ => match goal with F : is_fail i = false |- _ => fail 1 | _ => pose proof (proj1 S) end
  end.
Lemma extract_steps : forall t i x y i', t <> TDub -> extract t i x = Some (y, i') -> is_fail i' = false -> steps i i'.
Proof.
  intros t i x y i' Ht H F. destruct t; try congruence; cbn [extract] in H;
    try (unfold in_Spin, in_Imsp, in_Cplx, in_Dplx, in_Mvec in H; chase); repeat follow; eauto using steps_trans.
Qed.

(** ** Sequences *)
Definition reads_as (toks : list text) (v : tval f64) : Prop :=
  projT1 v <> TDub /\ Forall2 token_reads toks (elems (projT1 v) (projT2 v)) /\ all_valid (projT1 v) (projT2 v).
Lemma extract_words : forall toks v, reads_as toks v -> forall s more, words s = toks ++ more -> exists r, words r = more /\ forall x0,
  extract (projT1 v) (mkIs s false false) x0 = Some (mapv Some (projT1 v) (projT2 v), mkIs r (nilb r) false).
Proof.
  intros toks [t x] (Ht & R & V) s more W. cbn [projT1 projT2] in *. destruct (words_read _ _ R s more W) as (r & RA & Wr).
  exists r. split; [exact Wr|]. destruct (extract_reads t _ _ _ Ht RA V) as (y & E & _ & G); [apply total_elems|].
  assert (y = x); [|subst; exact G]. apply grades_inj. unfold grades. rewrite E. reflexivity.
Qed.
Lemma elems_some : forall t (x : val f64 t), elems t x <> [].
Proof. intros t x H. pose proof (total_elems t x) as T. rewrite H in T. destruct t; discriminate T. Qed.
Lemma toks_some : forall toks v, reads_as toks v -> toks <> [].
Proof. intros toks v (_ & R & _) ->. inversion R as [A B|]. apply (elems_some (projT1 v) (projT2 v)). congruence. Qed.
Lemma live : forall r tok more, words r = tok ++ more -> tok <> [] -> nilb r = false.
Proof. intros [|c r] tok more H N; [|reflexivity]. destruct tok; [contradiction|discriminate H]. Qed.
Lemma read_cons : forall fresh (v : tval f64) l i y i' r, extract (projT1 v) i (fresh (projT1 v)) = Some (y, i') ->
  read_types fresh (types_of l) i' = Some r -> read_types fresh (types_of (v :: l)) i = Some (existT _ (projT1 v) y :: fst r, snd r).
Proof. intros fresh v l i y i' [a b] E H. cbn [types_of map read_types]. rewrite E. unfold types_of in H. rewrite H. reflexivity. Qed.
Lemma read_types_words : forall fresh tokss l, Forall2 reads_as tokss l -> forall s more, words s = concat tokss ++ more ->
  exists i', read_types fresh (types_of l) (mkIs s false false) = Some (map filled l, i') /\
    words (is_text i') = more /\ is_fail i' = false.
Proof.
  intros fresh tokss l H. induction H as [|toks v tokss l Hv H IH]; intros s more W.
  - exists (mkIs s false false). auto.
  - cbn [concat] in W. rewrite <- app_assoc in W. destruct (extract_words toks v Hv s _ W) as (r & Wr & E).
    assert (G : exists i', read_types fresh (types_of l) (mkIs r (nilb r) false) = Some (map filled l, i') /\
      words (is_text i') = more /\ is_fail i' = false).
    { destruct H as [|toks' v' tokss l Hv' H]; [exists (mkIs r (nilb r) false); auto|].
      rewrite (live r toks' (concat tokss ++ more)); [exact (IH r more Wr)| |exact (toks_some _ _ Hv')].
      rewrite Wr. cbn [concat]. rewrite <- app_assoc. reflexivity. }
    destruct G as (i' & Ei & Wi & Fi). exists i'. split; [|auto].
    rewrite (read_cons fresh v l _ _ _ _ (E _) Ei). reflexivity.
Qed.

(** ** Words no number begins with *)
Lemma numeral_start : forall n, proper n -> exists c w, numeral_text n = c :: w /\ In c ("+"%char :: "-"%char :: "."%char :: digit_chars).
Proof.
  intros n (D1 & _ & N & _). unfold numeral_text, digits_text, frac_digits in *.
  destruct (nm_sign n) as [[]|]; cbn [sign_chars app]; [eexists _, _; split; [reflexivity|cbn; auto]..|].
  destruct (nm_int n) as [|d l].
  - destruct (nm_frac n) as [f|]; [|contradiction]. cbn [map app]. eexists _, _. split; [reflexivity|cbn; auto].
  - cbn [map app]. eexists _, _. split; [reflexivity|]. apply Forall_inv in D1. right. right. right. apply nth_In. exact D1.
Qed.
Lemma start_black : forall c, In c ("+"%char :: "-"%char :: "."%char :: digit_chars) -> ~ white c.
Proof. intros c H. cbn in H. repeat (destruct H as [<-|H]; [apply not_white; reflexivity|]). contradiction. Qed.
Lemma words_head : forall c s, ~ white c -> exists w ws, words (c :: s) = (c :: w) :: ws.
Proof.
  intros c s H. unfold words. cbn [words_from]. destruct (white_dec c); [contradiction|]. cbn [app].
  assert (G : forall s cur, exists w ws, words_from (c :: cur) s = (c :: w) :: ws); [|apply G].
  clear s. induction s as [|d s IH]; intros cur; cbn [words_from]; [eauto|]. destruct (white_dec d); [eauto|]. cbn [app]. apply IH.
Qed.
Lemma stuck_reads : forall s, stuck (words s) -> forall v r, ~ reads s v r.
Proof.
  intros s H v r (b & n & -> & B & P & _). rewrite words_blanks in H by exact B. destruct (numeral_start n P) as (c & w & E & C).
  rewrite E in H. cbn [app] in H. destruct (words_head c (w ++ r) (start_black c C)) as (w' & ws & E'). rewrite E' in H. exact (H C).
Qed.
Lemma rtext_words : forall i, stuck (words (is_text i)) -> stuck (words (rtext i)).
Proof. intros [s [] f] H; [exact I|exact H]. Qed.
Lemma extract_stuck : forall t i x y i', t <> TDub -> stuck (words (is_text i)) -> extract t i x = Some (y, i') -> is_fail i' = true.
Proof.
  intros t i x y i' Ht H E. destruct (is_fail i') eqn:F; [reflexivity|]. destruct (extract_steps t i x y i' Ht E F) as (_ & (v & r & Hr) & _).
  apply rtext_words in H. destruct (stuck_reads _ H _ _ Hr).
Qed.

(** ** Loops *)
Lemma rtext_le : forall i, (length (rtext i) <= length (is_text i))%nat.
Proof. intros [s [] f]; cbn; lia. Qed.
Lemma loop_ends : forall t, t <> TDub -> forall n i, (length (rtext i) <= n)%nat -> exists l i', is_fail i' = true /\ (length l <= n)%nat /\
  forall x fuel, (n < fuel)%nat -> read_loop fuel t x i = Some (map (mapv Some t) l, i').
Proof.
  intros t Ht. induction n as [n IH] using lt_wf_ind. intros i Hn. destruct (extract_initialised t i Ht) as (y & i1 & E).
  destruct (is_fail i1) eqn:F.
  - exists [], i1. split; [exact F|]. split; [cbn; lia|]. intros x [|fuel] Hf; [lia|]. cbn [read_loop]. rewrite E, F. reflexivity.
  - destruct (extract_steps t i (mapv Some t y) _ i1 Ht (E _) F) as (_ & _ & S).
    destruct (IH (Nat.pred n) ltac:(lia) i1 ltac:(lia)) as (l & i' & F' & N & G). exists (y :: l), i'. split; [exact F'|].
    split; [cbn; lia|]. intros x [|fuel] Hf; [lia|]. cbn [read_loop]. rewrite E, F, G by lia. reflexivity.
Qed.
Lemma loop_terminates : forall t i, t <> TDub -> exists l i', is_fail i' = true /\ (length l <= length (is_text i))%nat /\
  forall x fuel, (length (is_text i) < fuel)%nat -> read_loop fuel t x i = Some (map (mapv Some t) l, i').
Proof. intros t i Ht. apply loop_ends; [exact Ht|apply rtext_le]. Qed.
Lemma loop_words : forall t, t <> TDub -> forall tokss l, Forall2 (fun toks x => reads_as toks (existT _ t x)) tokss l -> forall s more, stuck more ->
  words s = concat tokss ++ more -> exists i', is_fail i' = true /\ forall x fuel, (length l < fuel)%nat ->
  read_loop fuel t x (mkIs s false false) = Some (map (mapv Some t) l, i').
Proof.
  intros t Ht tokss l H. induction H as [|toks v tokss l Hv H IH]; intros s more M W.
  - destruct (extract_initialised t (mkIs s false false) Ht) as (y & i1 & E).
    pose proof (extract_stuck t (mkIs s false false) (mapv Some t y) _ i1 Ht ltac:(cbn [is_text]; rewrite W; exact M) (E _)) as F.
    exists i1. split; [exact F|]. intros x [|fuel] Hf; [cbn in Hf; lia|]. cbn [read_loop map]. rewrite E, F. reflexivity.
  - cbn [concat] in W. rewrite <- app_assoc in W. destruct (extract_words _ _ Hv s _ W) as (r & Wr & E). cbn [projT1 projT2] in E.
    assert (G : exists i', is_fail i' = true /\ forall x fuel, (length l < fuel)%nat ->
      read_loop fuel t x (mkIs r (nilb r) false) = Some (map (mapv Some t) l, i')).
    { destruct (nilb r) eqn:N; [|exact (IH r more M Wr)]. destruct r; [|discriminate]. destruct H as [|toks' v' tokss l Hv' H].
      - destruct (extract_initialised t (mkIs [] true false) Ht) as (y & i1 & E').
        pose proof (extract_stuck t (mkIs [] true false) (mapv Some t y) _ i1 Ht Logic.I (E' _)) as F.
        exists i1. split; [exact F|]. intros x [|fuel] Hf; [cbn in Hf; lia|]. cbn [read_loop map]. rewrite E', F. reflexivity.
      - exfalso. cbn [concat] in Wr. rewrite <- app_assoc in Wr. pose proof (live [] toks' _ Wr (toks_some _ _ Hv')) as X. discriminate X. }
    destruct G as (i' & F' & G). exists i'. split; [exact F'|]. intros x [|fuel] Hf; [cbn in Hf; lia|]. cbn [read_loop map]. rewrite E. cbn [is_fail].
    rewrite G by (cbn in Hf; lia). reflexivity.
Qed.

(** ** Texts of enote *)
Lemma enote_as : forall nn a v s, (16 <= a < 2 ^ 31)%Z -> projT1 v <> TDub -> all_valid (projT1 v) (projT2 v) -> enote_of nn a v s -> reads_as (words s) v.
Proof.
  intros nn a [t x] s Ha Ht V (f & E & ->). split; [exact Ht|]. split; [|exact V]. cbn [projT1 projT2] in *.
  destruct (enote_words nn t f E x a) as (p & Hp & W). specialize (Hp ltac:(lia)).
  eapply forall2_swap; [|exact W]. intros v tok K S. apply (sci_back nn p v tok); [lia| |exact S].
  unfold all_valid in V. rewrite Forall_forall in V. apply valid_fin, V, K.
Qed.
Lemma words_lines : forall l, words (lines l) = concat (map words l).
Proof.
  induction l as [|s l IH]; [reflexivity|]. unfold lines in *. cbn [map concat]. rewrite <- app_assoc. cbn [app]. rewrite words_app.
  - rewrite IH. reflexivity.
  - right. right. left. reflexivity.
Qed.
Lemma enote_file : forall nn a l texts, (16 <= a < 2 ^ 31)%Z -> Forall2 (enote_of nn a) l texts -> Forall storable l ->
  Forall2 reads_as (map words texts) l.
Proof.
  intros nn a l texts Ha H. induction H as [|v s l texts Hv H IH]; intros S; constructor.
  - apply Forall_inv in S. destruct S as [S1 S2]. eapply enote_as; eauto.
  - apply IH. apply Forall_inv_tail in S. exact S.
Qed.
Lemma sequence_back : forall nn a l texts, (16 <= a < 2 ^ 31)%Z -> Forall2 (enote_of nn a) l texts -> Forall storable l ->
  forall fresh s more, words s = concat (map words texts) ++ more ->
  exists i', read_types fresh (types_of l) (mkIs s false false) = Some (map filled l, i') /\
    words (is_text i') = more /\ is_fail i' = false.
Proof. intros nn a l texts Ha H S fresh s more. apply read_types_words. eapply enote_file; eauto. Qed.
Lemma lines_back : forall nn a l texts, (16 <= a < 2 ^ 31)%Z -> Forall2 (enote_of nn a) l texts -> Forall storable l -> forall fresh,
  exists i', read_types fresh (types_of l) (mkIs (lines texts) false false) = Some (map filled l, i') /\ is_fail i' = false.
Proof.
  intros nn a l texts Ha H S fresh. destruct (sequence_back nn a l texts Ha H S fresh (lines texts) []) as (i' & A & _ & B); [|eauto].
  rewrite app_nil_r. apply words_lines.
Qed.
Lemma loop_back : forall nn a t f l, enote nn t = Some f -> t <> TDub -> (16 <= a < 2 ^ 31)%Z -> Forall (all_valid t) l ->
  forall s more, words s = concat (map (fun x => words (f x a)) l) ++ more -> stuck more ->
  exists i', is_fail i' = true /\ forall x fuel, (length l < fuel)%nat ->
  read_loop fuel t x (mkIs s false false) = Some (map (mapv Some t) l, i').
Proof.
  intros nn a t f l E Ht Ha V s more W M. eapply loop_words; [exact Ht| |exact M|exact W].
  clear W. induction V as [|x l Vx V IH]; constructor; [|exact IH].
  apply (enote_as nn a (existT _ t x)); [exact Ha|exact Ht|exact Vx|]. exists f. auto.
Qed.

(** ** Texts of operator<< *)
Lemma near_value_sym : forall tol t x y, Forall2 (close_to tol) (elems t x) (elems t y) -> near_value tol (existT _ t x) (existT _ t y).
Proof. intros tol t x y H. exists t, x, y. auto. Qed.
Lemma write_words : forall nn l os os', (white (os_fill os) \/ os_width os <= 0)%Z -> Forall (fun v => projT1 v <> TDub /\ all_finite (projT1 v) (projT2 v)) l ->
  write_all nn l os = Some os' -> exists s tokss l', os_out os' = os_out os ++ s /\ words s = concat tokss /\ Forall2 reads_as tokss l' /\
    Forall2 (near_value (powerRZ 10 (-6))) l l'.
Proof.
  intros nn. induction l as [|[t x] l IH]; intros os os' O V H; cbn [write_all] in H.
  - inversion H; subst. exists [], [], []. split; [symmetry; apply app_nil_r|]. repeat split; constructor.
  - apply Forall_cons_iff in V. destruct V as [[Ht V] VL]. cbn [projT1 projT2] in *. destruct (insert nn t) as [f|] eqn:E; [|discriminate].
    destruct (insert_words nn t f E x os O) as (s & Es & Ws). 
    assert (P : os_width (f x os) = 0%Z) by apply (insert_state nn t f E x os).
    destruct (put_plain (f x os) ["010"%char]) as [Q1 Q2]; [lia|].
    destruct (IH _ os' (or_intror (Z.eq_le_incl _ _ Q2)) VL H) as (s' & tokss & l' & Es' & Ws' & R & N).
    destruct (pick (shows_fixed nn 6) token_reads (fun x v => valid_number v /\ close_to (powerRZ 10 (- Z.of_nat 6)) x v) (elems t x) (words s)) as (vs & V1 & V2); [|exact Ws|].
    { intros u tok K S. unfold all_finite in V. rewrite Forall_forall in V. specialize (V u K).
      destruct (fixed_near nn 6 u tok ltac:(lia) V S) as (v & A & B & C & _). exists v. auto. }
    assert (VV : Forall valid_number vs) by (clear - V2; induction V2 as [|u v k m [A B] V2 IH]; constructor; auto).
    destruct (read_object t _ vs s [] Ht V1 eq_refl Logic.I VV) as (y & r & Ey & _).
    { rewrite <- (forall2_length _ _ _ V2). apply total_elems. }
    exists (s ++ "010"%char :: s'), (words s :: tokss), (existT _ t y :: l'). split; [|split; [|split]].
    + rewrite Es', Q1, Es, <- !app_assoc. reflexivity.
    + rewrite words_app by (right; right; left; reflexivity). rewrite Ws'. reflexivity.
    + constructor; [|exact R]. split; [exact Ht|]. cbn [projT1 projT2]. unfold all_valid. rewrite Ey. auto.
    + constructor; [|exact N]. apply near_value_sym. rewrite Ey. eapply forall2_impl; [|exact V2]. intros u v K. apply K.
Qed.
Lemma near_types : forall tol l l', Forall2 (near_value tol) l l' -> types_of l' = types_of l.
Proof. intros tol l l' H. induction H as [|v w l l' (t & x & y & -> & -> & _) H IH]; [reflexivity|]. cbn [types_of map projT1]. fold (types_of l) (types_of l'). rewrite IH. reflexivity. Qed.
Lemma printed_back : forall nn l os os', (white (os_fill os) \/ os_width os <= 0)%Z ->
  Forall (fun v => projT1 v <> TDub /\ all_finite (projT1 v) (projT2 v)) l -> write_all nn l os = Some os' ->
  exists s l', os_out os' = os_out os ++ s /\ Forall2 (near_value (powerRZ 10 (-6))) l l' /\ Forall storable l' /\
  forall fresh, exists i', read_types fresh (types_of l) (mkIs s false false) = Some (map filled l', i') /\ is_fail i' = false.
Proof.
  intros nn l os os' O V H. destruct (write_words nn l os os' O V H) as (s & tokss & l' & Es & Ws & R & N).
  exists s, l'. split; [exact Es|]. split; [exact N|]. split.
  - clear - R. induction R as [|a b l m (A & _ & B) R IH]; constructor; [split; assumption|exact IH].
  - intros fresh. rewrite <- (near_types _ _ _ N). destruct (read_types_words fresh tokss l' R s []) as (i' & A & _ & B); [|eauto].
    rewrite app_nil_r. exact Ws.
Qed.

(** ** A component that is finite but not valid *)
Lemma nan_vector : forall tok (x : f64), token_reads tok x -> is_finite x = true -> ~ valid_number x -> forall s more, words s = tok :: more ->
  exists r, words r = more /\ forall x0, extract TVec (mkIs s false false) x0 =
    Some (mapv Some TVec (Vec nnan nnan nnan), mkIs r (nilb r) false).
Proof.
  intros tok x R F V s more W. destruct (words_split s tok more W) as (b & r & -> & B & O & Wr). exists r. split; [exact Wr|].
  intros [[c0 c1 c2]]. pose proof (reads_blanks b _ _ _ B (R r O)) as G. cbn [extract]. unfold in_Vec, bind, in_arr3, in_arr, arr3_list. cbn [vecData at30 at31 at32 in_loop].
  rewrite (get_reads _ _ _ c0 G). unfold isInputOkay. cbn [is_fail].
  assert (E : isValid_Dub x = false). { destruct (isValid_Dub x) eqn:E; [apply isValid_number in E; contradiction|reflexivity]. }
  rewrite E. reflexivity.
Qed.
Lemma misaligned : forall nn a f (x y z u v w : f64), enote nn TVec = Some f -> (16 <= a < 2 ^ 31)%Z ->
  is_finite x = true -> ~ valid_number x -> valid_number y -> valid_number z -> valid_number u -> forall fresh,
  exists i', read_types fresh [TVec; TVec] (mkIs (lines [f (Vec x y z) a; f (Vec u v w) a]) false false) =
    Some ([filled (existT _ TVec (Vec nnan nnan nnan)); filled (existT _ TVec (Vec y z u))], i') /\ is_fail i' = false.
Proof.
  intros nn a f x y z u v w E Ha Fx Nx Vy Vz Vu fresh.
  destruct (enote_words nn TVec f E (Vec x y z) a) as (p & Hp & W). specialize (Hp ltac:(lia)).
  destruct (enote_words nn TVec f E (Vec u v w) a) as (q & Hq & W'). specialize (Hq ltac:(lia)).
  change (elems TVec (Vec x y z)) with [x; y; z] in W. change (elems TVec (Vec u v w)) with [u; v; w] in W'.
  pose proof (words_lines [f (Vec x y z) a; f (Vec u v w) a]) as WL. set (s := lines _) in *. clearbody s. cbn [map concat] in WL.
  rewrite app_nil_r in WL.
  set (A := words (f (Vec x y z) a)) in *. set (B := words (f (Vec u v w) a)) in *. clearbody A B.
  inversion W as [|? tx ? l1 Sx W1]; subst. inversion W1 as [|? tk ? l2 Sy W2]; subst. inversion W2 as [|? tz ? l3 Sz W3]; subst. inversion W3; subst.
  inversion W' as [|? tu ? l4 Su W4]; subst. cbn [app] in WL.
  assert (P : forall (x : f64) tok, is_finite x = true -> shows_sci nn p x tok -> token_reads tok x) by (intros; apply (sci_back nn p); auto; lia).
  destruct (nan_vector tx x (P _ _ Fx Sx) Fx Nx s _ WL) as (r & Wr & G).
  destruct (extract_words [tk; tz; tu] (existT _ TVec (Vec y z u))) with (s := r) (more := l4) as (r' & Wr' & G'); [|exact Wr|].
  { split; [discriminate|]. split; [change (elems _ _) with [y; z; u]|change (Forall valid_number [y; z; u]); auto].
    repeat constructor; [apply P|apply P|]; try apply valid_fin; try assumption. apply (sci_back nn q); [lia|apply valid_fin, Vu|exact Su]. }
  cbn [projT1 projT2] in G'. exists (mkIs r' (nilb r') false). split; [|reflexivity]. cbn [read_types]. rewrite G, (live r [tk] _ Wr) by discriminate.
  rewrite G'. reflexivity.
Qed.

(** ** Cases *)
Definition tiny : f64 := f64_lit 1 (-1074).
Lemma tiny_finite : is_finite tiny = true /\ ~ valid_number tiny.
Proof. split; [reflexivity|]. intros H. apply isValid_number in H. vm_compute in H. discriminate H. Qed.
Definition two_objects : list (tval f64) :=
  [existT _ TImsp (mkImsp (Vec third dmax (f64_lit (-7) 0)) (Tri dmin)); existT _ TSca (Sca third)].
Lemma two_storable : Forall storable two_objects.
Proof.
  pose proof third_valid. pose proof dmax_valid. pose proof dmin_valid.
  assert (V : valid_number (f64_lit (-7) 0)) by (apply isValid_number; vm_compute; reflexivity).
  constructor; [split; [discriminate|]|constructor; [split; [discriminate|]|constructor]].
  - change (Forall valid_number [third; dmax; f64_lit (-7) 0; dmin]). auto.
  - change (Forall valid_number [third]). auto.
Qed.
Definition shown (o : option (list (val cell TVec) * istream)) : option (list (list (option SpecFloat.spec_float)) * text * bool * bool) :=
  option_map (fun '(l, i) => (map (fun v => map (option_map (@B2SF 53 1024)) (elems TVec v)) l, is_text i, is_eof i, is_fail i)) o.
Lemma loop_shown : forall c : cell,
  shown (read_loop 40 TVec (Vec c c c) (mkIs (text_of " 1 -2.5
 3e2 4 5 6 total 7 8 9") false false)) =
  Some ([[num 1 0; num (-5) (-1); num 300 0]; [num 4 0; num 5 0; num 6 0]], text_of "total 7 8 9", false, true).
Proof. intros c. vm_compute. reflexivity. Qed.
