(** Facts about the preprocessor: each file appears once, after the files it
    includes; and about the names in the files of /repo/include. *)

From Coq Require Import String List Bool Arith Lia.
From Verif Require Import Headers Incl SpecIncl.
Import ListNotations.

(** ** names and texts *)

Definition names (t : list decl) : list string := flat_map declares t.

Lemma names_declared n t : In n (names t) <-> declared n t.
Proof.
  unfold names, declared. rewrite in_flat_map. reflexivity.
Qed.

Lemma existsb_eqb n l : existsb (String.eqb n) l = true <-> In n l.
Proof.
  rewrite existsb_exists. split.
  - intros [x [Hx He]]. apply String.eqb_eq in He. now subst.
  - intro H. exists n. split; [exact H|apply String.eqb_refl].
Qed.

Definition in_order_after (known : list string) (t : list decl) : Prop :=
  forall before d after n,
    t = before ++ d :: after -> In n (refers d) ->
    In n known \/ declared n before \/ In n (declares d).

Lemma accepted_after_iff t : forall known,
  accepted_after known t = true <-> in_order_after known t.
Proof.
  induction t as [|d t IH]; intro known; cbn [accepted_after].
  - split; [|reflexivity]. intros _ before d after n H. destruct before; discriminate.
  - rewrite andb_true_iff, forallb_forall, IH. split.
    + intros [H1 H2] before d' after n He Hn.
      destruct before as [|b before]; cbn in He; injection He as -> ->.
      * specialize (H1 n Hn). apply existsb_eqb in H1. apply in_app_or in H1. tauto.
      * destruct (H2 before d' after n eq_refl Hn) as [H|[H|H]]; [|right; left|now right; right].
        -- apply in_app_or in H. destruct H as [H|H]; [right; left|now left].
           exists b. split; [now left|exact H].
        -- destruct H as [x [Hx Hx']]. exists x. split; [now right|exact Hx'].
    + intro H. split.
      * intros n Hn. apply existsb_eqb, in_or_app.
        destruct (H [] d t n eq_refl Hn) as [K|[K|K]]; [now right| |now left].
        destruct K as [x [Kx _]]. destruct Kx.
      * intros before d' after n He Hn.
        destruct (H (d :: before) d' after n (f_equal (cons d) He) Hn) as [K|[K|K]].
        -- left. apply in_or_app. now right.
        -- destruct K as [x [[->|Kx] Kx']].
           ++ left. apply in_or_app. now left.
           ++ right. left. now exists x.
        -- now right; right.
Qed.

Lemma accepted_iff t : accepted t = true <-> in_order t.
Proof.
  unfold accepted. rewrite accepted_after_iff. unfold in_order_after, in_order.
  split; intros H before d after n He Hn;
    specialize (H before d after n He Hn); cbn in H; tauto.
Qed.

Lemma accepted_after_mono t : forall k k',
  incl k k' -> accepted_after k t = true -> accepted_after k' t = true.
Proof.
  intros k k' Hk. rewrite !accepted_after_iff. intros H before d after n He Hn.
  destruct (H before d after n He Hn) as [K|K]; [left; now apply Hk|now right].
Qed.

Lemma accepted_after_app t : forall k t',
  accepted_after k (t ++ t') = true <->
  accepted_after k t = true /\ accepted_after (names t ++ k) t' = true.
Proof.
  induction t as [|d t IH]; intros k t'; cbn [accepted_after app].
  - tauto.
  - rewrite !andb_true_iff, IH.
    assert (H : accepted_after (names t ++ declares d ++ k) t' = true <->
                accepted_after (names (d :: t) ++ k) t' = true).
    { unfold names; cbn [flat_map].
      split; apply accepted_after_mono; intros x; rewrite !in_app_iff; tauto. }
    tauto.
Qed.

Lemma accepted_files fs : forall k,
  accepted_after k (flat_map declarations fs) = true <->
  forall a x b, fs = a ++ x :: b ->
    accepted_after (names (flat_map declarations a) ++ k) (declarations x) = true.
Proof.
  induction fs as [|f fs IH]; intro k; cbn [flat_map].
  - split; [|reflexivity]. intros _ a x b H. destruct a; discriminate.
  - rewrite accepted_after_app, IH. split.
    + intros [H1 H2] a x b He. destruct a as [|y a]; cbn in He; injection He as -> ->.
      * exact H1.
      * apply (accepted_after_mono _ (names (flat_map declarations a) ++
                                      names (declarations y) ++ k)).
        -- intros n. unfold names. cbn [flat_map]. rewrite flat_map_app, !in_app_iff. tauto.
        -- now apply (H2 a x b).
    + intro H. split.
      * exact (H [] f fs eq_refl).
      * intros a x b He. subst fs.
        apply (accepted_after_mono _ (names (flat_map declarations (f :: a)) ++ k)).
        -- intros n. unfold names. cbn [flat_map]. rewrite flat_map_app, !in_app_iff. tauto.
        -- now apply (H (f :: a) x b).
Qed.

Lemma is_in_iff h l : is_in h l = true <-> In h l.
Proof. unfold is_in. destruct (in_dec header_eq_dec h l); split; intros; easy. Qed.

Lemma is_in_not h l : is_in h l = false <-> ~ In h l.
Proof. unfold is_in. destruct (in_dec header_eq_dec h l); split; intros; easy. Qed.

Lemma all_headers_all h : In h all_headers.
Proof. destruct h; cbn; tauto. Qed.

Lemma for_all_headers (f : header -> bool) :
  forallb f all_headers = true -> forall h, f h = true.
Proof. intros H h. rewrite forallb_forall in H. apply H, all_headers_all. Qed.

Lemma NoDup_app {A} (a b : list A) :
  NoDup a -> NoDup b -> (forall x, In x a -> ~ In x b) -> NoDup (a ++ b).
Proof.
  induction a as [|x a IH]; intros Ha Hb H; cbn; [exact Hb|].
  inversion Ha as [|? ? Hx Ha']; subst. constructor.
  - rewrite in_app_iff. intros [K|K]; [easy|]. exact (H x (or_introl eq_refl) K).
  - apply IH; auto. intros y Hy. apply H. now right.
Qed.

(** ** the preprocessor *)

Section Preprocessor.
Context (incs : header -> list header) (rk : header -> nat).
Context (Hrk : forall h h', In h' (incs h) -> rk h' < rk h).

Definition step (d : nat) (s : list header * list header) (h : header) :=
  let '(g, out) := s in
  let '(g', out') := include incs d g h in (g', out ++ out').

Lemma include_S d g h :
  include incs (S d) g h =
    if is_in h g then (g, [])
    else let '(g', out) := fold_left (step d) (incs h) (h :: g, []) in (g', out ++ [h]).
Proof. reflexivity. Qed.

Lemma include_all_fold d g l :
  include_all incs d g l = fold_left (step d) l (g, []).
Proof. reflexivity. Qed.

Lemma fold_out d l : forall g out,
  fold_left (step d) l (g, out) =
    let '(g', out') := fold_left (step d) l (g, []) in (g', out ++ out').
Proof.
  induction l as [|h l IH]; intros g out; cbn [fold_left].
  - now rewrite app_nil_r.
  - unfold step at 2 4. destruct (include incs d g h) as [g1 o1].
    rewrite (IH g1 (out ++ o1)), (IH g1 ([] ++ o1)).
    destruct (fold_left (step d) l (g1, [])) as [g2 o2].
    now rewrite app_assoc.
Qed.

Lemma fold_cons d h l g :
  fold_left (step d) (h :: l) (g, []) =
    let '(g1, o1) := include incs d g h in
    let '(g2, o2) := fold_left (step d) l (g1, []) in (g2, o1 ++ o2).
Proof.
  cbn [fold_left]. unfold step at 2. destruct (include incs d g h) as [g1 o1].
  rewrite fold_out. cbn [app]. reflexivity.
Qed.

(** what holds of the result [(g', out)] of including the files [l] *)
Record good (g : list header) (l : list header) (g' out : list header) : Prop := {
  good_guards : forall x, In x g' <-> In x g \/ In x out;
  good_nodup : NoDup out;
  good_new : forall x, In x out -> ~ In x g;
  good_all : forall x, In x l -> In x g';
  good_reach : forall x, In x out -> exists h, In h l /\ reaches incs h x;
  good_order : forall a x b y,
    out = a ++ x :: b -> In y (incs x) -> In y g \/ In y a
}.

Lemma reaches_rk h x : reaches incs h x -> rk x <= rk h.
Proof.
  induction 1 as [|h h' x Hi _ IH]; [lia|]. specialize (Hrk _ _ Hi). lia.
Qed.

Lemma reaches_trans a b c : reaches incs a b -> reaches incs b c -> reaches incs a c.
Proof.
  induction 1; [easy|]. intro H'. eapply reaches_step; [eassumption|]. now apply IHreaches.
Qed.

Lemma split_app {A} (u v a b : list A) x :
  u ++ v = a ++ x :: b ->
  (exists b', u = a ++ x :: b' /\ b = b' ++ v) \/
  (exists a', v = a' ++ x :: b /\ a = u ++ a').
Proof.
  revert a. induction u as [|z u IH]; intros a H; cbn in H.
  - right. now exists a.
  - destruct a as [|z' a]; cbn in H; injection H as -> H.
    + left. exists u. now rewrite H.
    + destruct (IH a H) as [[b' [-> ->]]|[a' [-> ->]]].
      * left. now exists b'.
      * right. now exists a'.
Qed.

Lemma good_app g l1 g1 o1 l2 g2 o2 :
  good g l1 g1 o1 -> good g1 l2 g2 o2 -> good g (l1 ++ l2) g2 (o1 ++ o2).
Proof.
  intros [A1 A2 A3 A4 A5 A6] [B1 B2 B3 B4 B5 B6]. split.
  - intro x. rewrite B1, A1, in_app_iff. tauto.
  - apply NoDup_app; auto.
    intros x Hx Hx'. apply (B3 x Hx'). apply A1. now right.
  - intros x Hx Hg. apply in_app_or in Hx as [Hx|Hx]; [exact (A3 x Hx Hg)|].
    apply (B3 x Hx), A1. now left.
  - intros x Hx. apply B1. apply in_app_or in Hx as [Hx|Hx]; [left; now apply A4|].
    apply B1. now apply B4.
  - intros x Hx. apply in_app_or in Hx as [Hx|Hx].
    + destruct (A5 x Hx) as [h [Hh Hr]]. exists h. split; [apply in_or_app; now left|exact Hr].
    + destruct (B5 x Hx) as [h [Hh Hr]]. exists h. split; [apply in_or_app; now right|exact Hr].
  - intros a x b y He Hy. apply split_app in He as [[b' [E1 E2]]|[a' [E1 E2]]].
    + exact (A6 a x b' y E1 Hy).
    + destruct (B6 a' x b y E1 Hy) as [H|H].
      * apply A1 in H. destruct H as [H|H]; [now left|right].
        subst a. apply in_or_app. now left.
      * right. subst a. apply in_or_app. now right.
Qed.

Lemma good_nil g : good g [] g [].
Proof.
  split; try easy.
  - intro x. cbn. tauto.
  - constructor.
  - intros a x b y H. destruct a; discriminate.
Qed.

Lemma fold_good d :
  (forall g h, rk h < d -> let '(g', out) := include incs d g h in good g [h] g' out) ->
  forall l g, (forall h, In h l -> rk h < d) ->
    let '(g', out) := fold_left (step d) l (g, []) in good g l g' out.
Proof.
  intros H. induction l as [|h l IH]; intros g Hl.
  - apply good_nil.
  - rewrite fold_cons. specialize (H g h (Hl h (or_introl eq_refl))).
    destruct (include incs d g h) as [g1 o1].
    specialize (IH g1 (fun x Hx => Hl x (or_intror Hx))).
    destruct (fold_left (step d) l (g1, [])) as [g2 o2].
    change (h :: l) with ([h] ++ l). eapply good_app; eassumption.
Qed.

Lemma include_good d : forall g h, rk h < d ->
  let '(g', out) := include incs d g h in good g [h] g' out.
Proof.
  induction d as [|d IH]; intros g h Hd; [lia|].
  rewrite include_S. destruct (is_in h g) eqn:Eh.
  - apply is_in_iff in Eh. split; try easy.
    + intro x. cbn. tauto.
    + constructor.
    + intros x [->|[]]. exact Eh.
    + intros a x b y H. destruct a; discriminate.
  - apply is_in_not in Eh.
    assert (Hl : forall h', In h' (incs h) -> rk h' < d).
    { intros h' Hh'. specialize (Hrk _ _ Hh'). lia. }
    pose proof (fold_good d IH (incs h) (h :: g) Hl) as G.
    destruct (fold_left (step d) (incs h) (h :: g, [])) as [g' out].
    destruct G as [A1 A2 A3 A4 A5 A6].
    assert (Hrout : forall x, In x out -> rk x < rk h).
    { intros x Hx. destruct (A5 x Hx) as [h' [Hh' Hr]].
      apply reaches_rk in Hr. specialize (Hrk _ _ Hh'). lia. }
    split.
    + intro x. rewrite A1, in_app_iff. cbn. tauto.
    + apply NoDup_app; [exact A2|repeat constructor; easy|].
      intros x Hx [<-|[]]. apply (A3 h Hx). now left.
    + intros x Hx Hg. apply in_app_or in Hx as [Hx|[<-|[]]]; [|easy].
      apply (A3 x Hx). now right.
    + intros x [<-|[]]. apply A1. left. now left.
    + intros x Hx. exists h. split; [now left|].
      apply in_app_or in Hx as [Hx|[<-|[]]]; [|constructor].
      destruct (A5 x Hx) as [h' [Hh' Hr]]. eapply reaches_step; eassumption.
    + intros a x b y He Hy. apply split_app in He as [[b' [E1 E2]]|[a' [E1 E2]]].
      * destruct (A6 a x b' y E1 Hy) as [[H|H]|H]; [|now left|now right].
        exfalso. subst y. specialize (Hrk _ _ Hy).
        assert (Hx : In x out) by (rewrite E1; apply in_elt).
        specialize (Hrout x Hx). lia.
      * destruct a' as [|z a']; cbn in E1.
        -- injection E1 as <- <-. rewrite app_nil_r in E2. subst a.
           specialize (A4 y Hy). apply A1 in A4. destruct A4 as [[H|H]|H]; [|now left|now right].
           exfalso. subst y. specialize (Hrk _ _ Hy). lia.
        -- injection E1 as _ E1. destruct a'; discriminate.
Qed.

Lemma include_all_good d l g : (forall h, rk h < d) ->
  let '(g', out) := include_all incs d g l in good g l g' out.
Proof.
  intro Hd. rewrite include_all_fold. apply fold_good; [|intros; apply Hd].
  intros; now apply include_good.
Qed.

Context (Hd : forall h, rk h < max_depth).

Lemma include_all_app d g l1 l2 :
  include_all incs d g (l1 ++ l2) =
    let '(g1, o1) := include_all incs d g l1 in
    let '(g2, o2) := include_all incs d g1 l2 in (g2, o1 ++ o2).
Proof.
  rewrite !include_all_fold, fold_left_app.
  destruct (fold_left (step d) l1 (g, [])) as [g1 o1].
  rewrite fold_out, include_all_fold. reflexivity.
Qed.

Lemma files_good l : good [] l (fst (include_all incs max_depth [] l)) (files_of incs l).
Proof.
  pose proof (include_all_good max_depth l [] Hd) as H. unfold files_of.
  destruct (include_all incs max_depth [] l). exact H.
Qed.

(** each file appears once *)
Lemma files_once l : NoDup (files_of incs l).
Proof. apply (good_nodup _ _ _ _ (files_good l)). Qed.

(** with each file, those it includes stand before it *)
Lemma files_prefix l p q y z :
  files_of incs l = p ++ q -> In y p -> reaches incs y z -> In z p.
Proof.
  intros He Hy Hr. revert Hy. induction Hr as [y|y y' z Hi Hr IH]; intro Hy; [exact Hy|].
  apply IH. apply in_split in Hy as [u [v ->]].
  rewrite <- app_assoc in He. cbn in He.
  destruct (good_order _ _ _ _ (files_good l) u y (v ++ q) y' He Hi) as [[]|K].
  apply in_or_app. now left.
Qed.

Lemma files_order l a x b y :
  files_of incs l = a ++ x :: b -> reaches incs x y -> y <> x -> In y a.
Proof.
  intros He Hr Hne. destruct Hr as [|x x' y Hi Hr]; [easy|].
  apply (files_prefix l a (x :: b) x' y He); [|exact Hr].
  destruct (good_order _ _ _ _ (files_good l) a x b x' He Hi) as [[]|K]. exact K.
Qed.

Lemma files_in l x : In x (files_of incs l) <-> exists h, In h l /\ reaches incs h x.
Proof.
  split; [apply (good_reach _ _ _ _ (files_good l))|].
  intros [h [Hh Hr]].
  assert (H : In h (files_of incs l)).
  { pose proof (good_all _ _ _ _ (files_good l) h Hh) as K.
    apply (good_guards _ _ _ _ (files_good l)) in K. destruct K as [[]|K]. exact K. }
  apply (files_prefix l (files_of incs l) [] h x); auto. now rewrite app_nil_r.
Qed.

Lemma reaches_files h x : reaches incs h x <-> In x (files_of incs [h]).
Proof.
  rewrite files_in. split.
  - intro H. exists h. split; [now left|exact H].
  - intros [h' [[<-|[]] H]]. exact H.
Qed.

(** the files of one line after others *)
Lemma files_app l1 l2 :
  exists o2, files_of incs (l1 ++ l2) = files_of incs l1 ++ o2 /\
    o2 = snd (include_all incs max_depth (fst (include_all incs max_depth [] l1)) l2).
Proof.
  unfold files_of. rewrite include_all_app.
  destruct (include_all incs max_depth [] l1) as [g1 o1]; cbn [fst snd].
  destruct (include_all incs max_depth g1 l2) as [g2 o2]; cbn [fst snd].
  now exists o2.
Qed.

(** which line brings in a file *)
Lemma files_split l a x b :
  files_of incs l = a ++ x :: b ->
  exists before h after o1 o2,
    l = before ++ h :: after /\
    snd (include_all incs max_depth (fst (include_all incs max_depth [] before)) [h])
      = o1 ++ x :: o2 /\
    a = files_of incs before ++ o1 /\ reaches incs h x.
Proof.
  revert a x b. induction l as [|h l IH] using rev_ind; intros a x b He.
  - destruct a; discriminate.
  - destruct (files_app l [h]) as [o [E1 E2]]. rewrite E1 in He.
    apply split_app in He as [[b' [F1 F2]]|[a' [F1 F2]]].
    + destruct (IH a x b' F1) as (before & h' & after & o1 & o2 & G1 & G2 & G3 & G4).
      exists before, h', (after ++ [h]), o1, o2. rewrite G1, <- app_assoc. auto.
    + exists l, h, [], a', b. rewrite <- E2. repeat split; auto.
      pose proof (include_all_good max_depth [h] (fst (include_all incs max_depth [] l)) Hd) as G.
      destruct (include_all incs max_depth (fst (include_all incs max_depth [] l)) [h]) as [g2 o2].
      cbn [snd] in E2. rewrite E2 in F1.
      destruct (good_reach _ _ _ _ G x) as [h' [[<-|[]] K]]; [rewrite F1; apply in_elt|exact K].
Qed.

(** ** files that do not matter *)

Context (rel : header -> bool).
Context (Hrel : forall h h', In h' (incs h) -> rel h' = true -> rel h = true).

Lemma reaches_rel h x : reaches incs h x -> rel x = true -> rel h = true.
Proof. induction 1 as [|h h' x Hi _ IH]; intro H; [exact H|]. eauto. Qed.

Lemma include_irrelevant d : forall g h, rel h = false ->
  let '(g', out) := include incs d g h in
  filter rel g' = filter rel g /\ filter rel out = [].
Proof.
  induction d as [|d IH]; intros g h Hh; [easy|].
  rewrite include_S. destruct (is_in h g); [easy|].
  assert (F : forall l g, (forall h', In h' l -> rel h' = false) ->
            let '(g', out) := fold_left (step d) l (g, []) in
            filter rel g' = filter rel g /\ filter rel out = []).
  { induction l as [|h' l IHl]; intros g0 Hl; [easy|].
    rewrite fold_cons. specialize (IH g0 h' (Hl h' (or_introl eq_refl))).
    destruct (include incs d g0 h') as [g1 o1].
    specialize (IHl g1 (fun x Hx => Hl x (or_intror Hx))).
    destruct (fold_left (step d) l (g1, [])) as [g2 o2].
    destruct IH as [I1 I2], IHl as [J1 J2]. rewrite filter_app, I2, J2, J1, I1. easy. }
  specialize (F (incs h) (h :: g)).
  destruct (fold_left (step d) (incs h) (h :: g, [])) as [g' out].
  destruct F as [F1 F2].
  - intros h' Hi. destruct (rel h') eqn:E; [|reflexivity].
    rewrite (Hrel _ _ Hi E) in Hh. discriminate.
  - rewrite filter_app, F1, F2. cbn. rewrite Hh. easy.
Qed.

Lemma include_relevant d : forall g1 g2 h, filter rel g1 = filter rel g2 ->
  let '(g1', o1) := include incs d g1 h in
  let '(g2', o2) := include incs d g2 h in
  filter rel g1' = filter rel g2' /\ filter rel o1 = filter rel o2.
Proof.
  induction d as [|d IH]; intros g1 g2 h Hg; [easy|].
  destruct (rel h) eqn:Eh.
  - rewrite !include_S.
    assert (E : is_in h g1 = is_in h g2).
    { apply eq_true_iff_eq. rewrite !is_in_iff. split; intro H.
      - assert (K : In h (filter rel g1)) by (apply filter_In; auto).
        rewrite Hg in K. now apply filter_In in K.
      - assert (K : In h (filter rel g2)) by (apply filter_In; auto).
        rewrite <- Hg in K. now apply filter_In in K. }
    rewrite E. destruct (is_in h g2); [easy|].
    assert (F : forall l g1 g2, filter rel g1 = filter rel g2 ->
              let '(g1', o1) := fold_left (step d) l (g1, []) in
              let '(g2', o2) := fold_left (step d) l (g2, []) in
              filter rel g1' = filter rel g2' /\ filter rel o1 = filter rel o2).
    { induction l as [|h' l IHl]; intros k1 k2 Hk; [easy|].
      rewrite !fold_cons. specialize (IH k1 k2 h' Hk).
      destruct (include incs d k1 h') as [m1 p1], (include incs d k2 h') as [m2 p2].
      destruct IH as [I1 I2]. specialize (IHl m1 m2 I1).
      destruct (fold_left (step d) l (m1, [])) as [n1 q1],
               (fold_left (step d) l (m2, [])) as [n2 q2].
      destruct IHl as [J1 J2]. rewrite !filter_app, I2, J2. easy. }
    specialize (F (incs h) (h :: g1) (h :: g2)).
    destruct (fold_left (step d) (incs h) (h :: g1, [])) as [g1' o1],
             (fold_left (step d) (incs h) (h :: g2, [])) as [g2' o2].
    destruct F as [F1 F2]; [cbn; now rewrite Eh, Hg|].
    rewrite !filter_app, F2. easy.
  - pose proof (include_irrelevant (S d) g1 h Eh) as H1.
    pose proof (include_irrelevant (S d) g2 h Eh) as H2.
    destruct (include incs (S d) g1 h) as [g1' o1], (include incs (S d) g2 h) as [g2' o2].
    destruct H1 as [-> ->], H2 as [-> ->]. easy.
Qed.

(** when nothing that matters was included before, a line brings in what it
    would bring in alone, as far as it matters *)
Lemma first_relevant before h :
  (forall h', In h' before -> rel h' = false) ->
  filter rel (snd (include_all incs max_depth (fst (include_all incs max_depth [] before)) [h]))
  = filter rel (files_of incs [h]).
Proof.
  intro Hb.
  assert (G : filter rel (fst (include_all incs max_depth [] before)) = []).
  { destruct (filter rel (fst (include_all incs max_depth [] before))) as [|x t] eqn:E;
      [reflexivity|exfalso].
    assert (Hx : In x (filter rel (fst (include_all incs max_depth [] before))))
      by (rewrite E; now left).
    apply filter_In in Hx as [Hx Rx].
    apply (good_guards _ _ _ _ (files_good before)) in Hx. destruct Hx as [[]|Hx].
    apply files_in in Hx as [h' [Hh' Hr]].
    pose proof (reaches_rel _ _ Hr Rx) as K. rewrite (Hb h' Hh') in K. discriminate. }
  set (g := fst (include_all incs max_depth [] before)) in *.
  unfold files_of. rewrite !include_all_fold, !fold_cons. cbn [fold_left].
  pose proof (include_relevant max_depth g [] h G) as K.
  destruct (include incs max_depth g h) as [g1 o1], (include incs max_depth [] h) as [g2 o2].
  cbn [snd]. rewrite !app_nil_r. apply K.
Qed.

End Preprocessor.
