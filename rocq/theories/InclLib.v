(** The files of /repo/include: which sequences of [#include] lines give a
    text in which every name is declared before it is used. *)

From Coq Require Import String List Bool Arith Lia.
From Verif Require Import Headers Incl SpecIncl InclFacts.
Import ListNotations.

(** place of a file in [all_headers], where files follow those they include *)
Fixpoint place (h : header) (l : list header) : nat :=
  match l with
  | [] => 0
  | x :: t => if header_eq_dec h x then 0 else S (place h t)
  end.
Definition rk (h : header) : nat := place h all_headers.

Lemma rk_depth h : rk h < max_depth.
Proof. apply Nat.ltb_lt. revert h. apply for_all_headers. vm_compute. reflexivity. Qed.

(** the two files with the line that they lack *)
Definition repaired (h : header) : list header :=
  match h with
  | h_g3opsAdd_same | h_g3opsSub_same => h_g3traits :: includes h
  | _ => includes h
  end.

Definition ranked (incs : header -> list header) : bool :=
  forallb (fun h => forallb (fun h' => rk h' <? rk h) (incs h)) all_headers.

Lemma ranked_rk incs : ranked incs = true -> forall h h', In h' (incs h) -> rk h' < rk h.
Proof.
  intros H h h' Hi. apply Nat.ltb_lt. unfold ranked in H.
  pose proof (for_all_headers _ H h) as K. cbn beta in K.
  rewrite forallb_forall in K. exact (K h' Hi).
Qed.

Lemma includes_rk h h' : In h' (includes h) -> rk h' < rk h.
Proof. apply ranked_rk. vm_compute. reflexivity. Qed.

Lemma repaired_rk h h' : In h' (repaired h) -> rk h' < rk h.
Proof. apply ranked_rk. vm_compute. reflexivity. Qed.

(** ** names *)

Section Names.
Context (incs : header -> list header).
Context (Hrk : forall h h', In h' (incs h) -> rk h' < rk h).
Context (lacks : header -> list header).

Definition others (x : header) : list header :=
  filter (fun y => negb (if header_eq_dec y x then true else false)) (files_of incs [x]).

(** all a file refers to is declared by the files it includes, by those it
    lacks, or by itself *)
Definition complete (x : header) : bool :=
  accepted_after (names (flat_map declarations (others x ++ lacks x))) (declarations x).

Context (Hc : forallb complete all_headers = true).

Lemma names_incl a b :
  incl a b -> incl (names (flat_map declarations a)) (names (flat_map declarations b)).
Proof.
  intros H n. unfold names. rewrite !in_flat_map. intros [d [Hd Hn]].
  rewrite in_flat_map in Hd. destruct Hd as [h [Hh Hd]].
  exists d. split; [|exact Hn]. apply in_flat_map. exists h. auto.
Qed.

Lemma file_accepted l a x b :
  files_of incs l = a ++ x :: b -> incl (lacks x) a ->
  accepted_after (names (flat_map declarations a)) (declarations x) = true.
Proof.
  intros He Hl.
  apply (accepted_after_mono _ (names (flat_map declarations (others x ++ lacks x)))).
  - apply names_incl. intros y Hy. apply in_app_or in Hy as [Hy|Hy]; [|now apply Hl].
    unfold others in Hy. apply filter_In in Hy as [Hy Hne].
    destruct (header_eq_dec y x) as [|Hne']; [discriminate|].
    apply (files_order incs rk Hrk rk_depth l a x b y He); [|exact Hne'].
    now apply (reaches_files incs rk Hrk rk_depth).
  - exact (for_all_headers _ Hc x).
Qed.

Lemma text_accepted l :
  (forall a x b, files_of incs l = a ++ x :: b -> incl (lacks x) a) ->
  accepted (text_of incs l) = true.
Proof.
  intro H. unfold accepted, text_of. apply accepted_files. intros a x b He.
  rewrite app_nil_r. apply (file_accepted l a x b He). exact (H a x b He).
Qed.

End Names.

(** no name is declared by two files, or twice in one *)
Definition all_names : list string := names (flat_map declarations all_headers).

Fixpoint nodupb (l : list string) : bool :=
  match l with
  | [] => true
  | x :: t => negb (existsb (String.eqb x) t) && nodupb t
  end.

Lemma nodupb_NoDup l : nodupb l = true -> NoDup l.
Proof.
  induction l as [|x l IH]; cbn; intro H; constructor; apply andb_prop in H as [H1 H2].
  - intro K. apply existsb_eqb in K. rewrite K in H1. discriminate.
  - auto.
Qed.

Lemma all_names_once : NoDup all_names.
Proof. apply nodupb_NoDup. vm_compute. reflexivity. Qed.

Lemma NoDup_flat_map_sub {A B} (f : A -> list B) (l l' : list A) :
  NoDup (flat_map f l') -> NoDup l -> incl l l' -> NoDup (flat_map f l).
Proof.
  intros Hf. induction l as [|x l IH]; intros Hl Hi; cbn; [constructor|].
  inversion Hl as [|? ? Hx Hl']; subst.
  assert (P : forall y z b, In y l' -> In z l' -> In b (f y) -> In b (f z) -> y <> z -> False).
  { clear -Hf. induction l' as [|w l' IH']; intros y z b Hy Hz Hby Hbz Hne; [easy|].
    cbn in Hf.
    assert (D : forall u, In u l' -> In b (f w) -> In b (f u) -> False).
    { intros u Hu Hbw Hbu. revert Hf Hbw. generalize (f w). intros k Hf Hbw.
      induction k as [|c k IHk]; [easy|]. cbn in Hf.
      inversion Hf as [|? ? Hc Hf']; subst. destruct Hbw as [->|Hbw]; [|now apply IHk].
      apply Hc, in_or_app. right. apply in_flat_map. now exists u. }
    assert (F : NoDup (flat_map f l')).
    { revert Hf. generalize (f w). intros k. induction k as [|c k IHk]; cbn; [easy|].
      intro Hf. inversion Hf; auto. }
    destruct Hy as [<-|Hy], Hz as [<-|Hz]; [easy|eauto|eauto|].
    exact (IH' F y z b Hy Hz Hby Hbz Hne). }
  apply NoDup_app.
  - specialize (Hi x (or_introl eq_refl)). apply in_split in Hi as [u [v ->]].
    rewrite flat_map_app in Hf. cbn in Hf.
    revert Hf. generalize (flat_map f u). intro k.
    induction k as [|c k IHk]; cbn; intro Hf.
    + revert Hf. generalize (f x). intro m. induction m as [|c m IHm]; cbn; intro Hf; [constructor|].
      inversion Hf as [|? ? Hc Hf']; subst. constructor; [|now apply IHm].
      intro K. apply Hc, in_or_app. now left.
    + inversion Hf; auto.
  - apply IH; auto. intros y Hy. apply Hi. now right.
  - intros b Hb Hb'. apply in_flat_map in Hb' as [y [Hy Hby]].
    apply (P x y b); auto.
    + apply Hi. now left.
    + apply Hi. now right.
    + intros ->. easy.
Qed.

Lemma flat_map_flat_map {A B C} (f : A -> list B) (g : B -> list C) l :
  flat_map g (flat_map f l) = flat_map (fun x => flat_map g (f x)) l.
Proof. induction l as [|x l IH]; cbn; [reflexivity|]. now rewrite flat_map_app, IH. Qed.

Lemma text_once incs (Hrk : forall h h', In h' (incs h) -> rk h' < rk h) l :
  NoDup (files_of incs l) /\ no_repetition (text_of incs l).
Proof.
  pose proof (files_once incs rk Hrk rk_depth l) as H. split; [exact H|].
  unfold no_repetition, text_of. rewrite flat_map_flat_map.
  apply (NoDup_flat_map_sub _ _ all_headers).
  - rewrite <- flat_map_flat_map. exact all_names_once.
  - exact H.
  - intros h _. apply all_headers_all.
Qed.

(** ** the code as it is *)

Definition lacking (x : header) : list header :=
  match x with
  | h_g3_private => [h_std]
  | h_g3opsAdd_same | h_g3opsSub_same => [h_g3traits]
  | _ => []
  end.

Lemma includes_complete : forallb (complete includes lacking) all_headers = true.
Proof. vm_compute. reflexivity. Qed.

Lemma first_needs k x n :
  accepted_after k (declarations x) = true ->
  match declarations x with
  | [] => True
  | d :: _ => In n (refers d) -> ~ In n (declares d) -> In n k
  end.
Proof.
  intro H. apply accepted_after_iff in H. destruct (declarations x) as [|d t]; [exact I|].
  intros Hr Hn. destruct (H [] d t n eq_refl Hr) as [K|[K|K]]; [exact K| |easy].
  destruct K as [y [[] _]].
Qed.

Lemma who_declares n h0 :
  forallb (fun h => implb (existsb (String.eqb n) (names (declarations h)))
                          (if header_eq_dec h h0 then true else false)) all_headers = true ->
  forall a, In n (names (flat_map declarations a)) -> In h0 a.
Proof.
  intros H a. unfold names. rewrite flat_map_flat_map, in_flat_map.
  intros [h [Hh Hn]]. pose proof (for_all_headers _ H h) as K. cbn beta in K.
  apply existsb_eqb in Hn. unfold names in K. rewrite Hn in K. cbn in K.
  destruct (header_eq_dec h h0) as [<-|]; [exact Hh|discriminate].
Qed.

Lemma accepted_order l :
  accepted (text_of includes l) = true <->
  forall a x b, files_of includes l = a ++ x :: b -> incl (lacking x) a.
Proof.
  split.
  - intros H a x b He. unfold accepted, text_of in H.
    pose proof (proj1 (accepted_files _ _) H a x b He) as K. rewrite app_nil_r in K.
    assert (T : forall x, x = h_g3opsAdd_same \/ x = h_g3opsSub_same ->
              accepted_after (names (flat_map declarations a)) (declarations x) = true ->
              In h_g3traits a).
    { intros y Hy Ky. apply (who_declares "is::blade"); [vm_compute; reflexivity|].
      pose proof (first_needs _ _ "is::blade"%string Ky) as F.
      destruct Hy as [-> | ->]; cbn in F; apply F; try tauto;
        intros [E|[E|[E|[E|[]]]]]; discriminate. }
    assert (S : accepted_after (names (flat_map declarations a)) (declarations h_g3_private)
                = true -> In h_std a).
    { intros Ky. apply (who_declares "std"); [vm_compute; reflexivity|].
      pose proof (first_needs _ _ "std"%string Ky) as F. cbn in F. apply F; [tauto|].
      intros [E|[]]; discriminate. }
    destruct x; cbn [lacking]; try apply incl_nil_l; intros y [<-|[]]; eauto.
  - intro H. apply (text_accepted includes includes_rk lacking includes_complete l H).
Qed.

Definition reachb (h x : header) : bool := is_in x (files_of includes [h]).

Lemma reachb_iff h x : reachb h x = true <-> reaches includes h x.
Proof. unfold reachb. rewrite is_in_iff. symmetry. apply (reaches_files includes rk includes_rk rk_depth). Qed.

(** the three files that the trait [is::blade] is about *)
Definition base (x : header) : bool :=
  match x with h_g3traits | h_g3opsAdd_same | h_g3opsSub_same => true | _ => false end.

Definition relevant (h : header) : bool := existsb base (files_of includes [h]).

Lemma relevant_iff h : relevant h = true <-> exists x, reaches includes h x /\ base x = true.
Proof.
  unfold relevant. rewrite existsb_exists. split; intros [x [Hx Hb]]; exists x; split; auto;
    now apply (reaches_files includes rk includes_rk rk_depth).
Qed.

Lemma relevant_up h h' : In h' (includes h) -> relevant h' = true -> relevant h = true.
Proof.
  intros Hi Hr. apply relevant_iff in Hr as [x [Hx Hb]]. apply relevant_iff.
  exists x. split; [|exact Hb]. eapply reaches_step; eassumption.
Qed.

Lemma base_relevant x : base x = true -> relevant x = true.
Proof. intro H. apply relevant_iff. exists x. split; [constructor|exact H]. Qed.

(** files that include g3traits.hpp before g3opsAdd_same.hpp and
    g3opsSub_same.hpp *)
Definition sufficient (h : header) : bool :=
  match h with
  | h_g3opsMul | h_g3ops | h_g3func | h_engabra | h_Engabra => true
  | _ => false
  end.

Definition same_ops (x : header) : Prop := x = h_g3opsAdd_same \/ x = h_g3opsSub_same.

Definition first_base (h : header) : option header := hd_error (filter base (files_of includes [h])).

Lemma first_base_table h :
  match first_base h with
  | None => true
  | Some h_g3traits => implb (reachb h h_g3opsAdd_same || reachb h h_g3opsSub_same) (sufficient h)
  | Some _ => negb (sufficient h)
  end = true.
Proof. revert h. apply for_all_headers. vm_compute. reflexivity. Qed.

Lemma sufficient_table h :
  implb (sufficient h) (reachb h h_g3traits && reachb h h_g3opsAdd_same) = true.
Proof. revert h. apply for_all_headers. vm_compute. reflexivity. Qed.

Definition std_base (x : header) : bool :=
  match x with h_std | h_g3_private => true | _ => false end.

Lemma std_table_all h :
  (if header_eq_dec h h_g3_private then true
   else reachb h h_std &&
        match hd_error (filter std_base (files_of includes [h])) with
        | Some y => if header_eq_dec y h_std then true else false
        | None => false
        end) = true.
Proof. revert h. apply for_all_headers. vm_compute. reflexivity. Qed.

Lemma std_table h : h <> h_g3_private ->
  reachb h h_std = true /\ hd_error (filter std_base (files_of includes [h])) = Some h_std.
Proof.
  intro Hh. pose proof (std_table_all h) as T.
  destruct (header_eq_dec h h_g3_private) as [|_]; [contradiction|].
  apply andb_prop in T as [T1 T2]. split; [exact T1|].
  destruct (hd_error (filter std_base (files_of includes [h]))) as [y|]; [|discriminate].
  destruct (header_eq_dec y h_std) as [->|]; [reflexivity|discriminate].
Qed.

Lemma filter_filter {A} (f g : A -> bool) l :
  (forall x, f x = true -> g x = true) -> filter f (filter g l) = filter f l.
Proof.
  intro H. induction l as [|x l IH]; cbn; [reflexivity|].
  destruct (g x) eqn:Eg; cbn; rewrite IH; destruct (f x) eqn:Ef; auto.
  rewrite (H x Ef) in Eg. discriminate.
Qed.

(** in [o1 ++ x :: o2] with [x] kept by [f] and not the first one kept, that
    first one is in [o1] *)
Lemma hd_filter {A} (f : A -> bool) o1 x o2 y :
  hd_error (filter f (o1 ++ x :: o2)) = Some y -> f x = true -> x <> y -> In y o1.
Proof.
  induction o1 as [|z o1 IH]; cbn; intros H Hf Hne.
  - rewrite Hf in H. injection H as ->. easy.
  - destruct (f z) eqn:Ez; [injection H as ->; now left|right; auto].
Qed.

Lemma hd_filter_split {A} (f : A -> bool) l y :
  hd_error (filter f l) = Some y ->
  exists a b, l = a ++ y :: b /\ forall z, In z a -> f z = false.
Proof.
  induction l as [|z l IH]; cbn; [easy|]. destruct (f z) eqn:Ez; intro H.
  - injection H as <-. exists [], l. split; [reflexivity|easy].
  - destruct (IH H) as [a [b [-> Ha]]]. exists (z :: a), b.
    split; [reflexivity|]. intros w [<-|Hw]; auto.
Qed.

Definition well_started (l : list header) : Prop :=
  hd_error l <> Some h_g3_private /\
  forall before h after, l = before ++ h :: after ->
    (reaches includes h h_g3opsAdd_same \/ reaches includes h h_g3opsSub_same) ->
    (exists h', In h' before /\ reaches includes h' h_g3traits) \/ sufficient h = true.

Lemma accepted_well_started l : accepted (text_of includes l) = true <-> well_started l.
Proof.
  rewrite accepted_order. split.
  - intro H. split.
    + intro He. destruct l as [|h l]; cbn in He; [easy|]. injection He as ->.
      destruct (files_app includes [h_g3_private] l) as [o [E _]].
      cbn [app] in E. change (files_of includes [h_g3_private]) with [h_g3_private] in E.
      specialize (H [] h_g3_private o E h_std (or_introl eq_refl)). easy.
    + intros before h after He Hs.
      destruct (existsb (fun h' => reachb h' h_g3traits) before) eqn:Eb.
      { left. apply existsb_exists in Eb as [h' [Hh' Hr]]. exists h'.
        split; [exact Hh'|now apply reachb_iff]. }
      right.
      assert (Nt : forall h', In h' before -> ~ reaches includes h' h_g3traits).
      { intros h' Hh' Hr. apply reachb_iff in Hr.
        assert (K : existsb (fun h' => reachb h' h_g3traits) before = true)
          by (apply existsb_exists; eauto).
        rewrite K in Eb. discriminate. }
      destruct (files_app includes (before ++ [h]) after) as [o [E1 _]].
      rewrite <- app_assoc in E1. cbn [app] in E1. rewrite <- He in E1.
      destruct (files_app includes before [h]) as [o' [E2 E2']]. rewrite E2 in E1.
      assert (Ntb : ~ In h_g3traits (files_of includes before)).
      { intro K. apply (files_in includes rk includes_rk rk_depth) in K as [h' [Hh' Hr]].
        exact (Nt h' Hh' Hr). }
      (* before brings in none of the three *)
      assert (Nr : forall h', In h' before -> relevant h' = false).
      { intros h' Hh'. destruct (relevant h') eqn:Er; [exfalso|reflexivity].
        apply relevant_iff in Er as [x [Hx Hb]].
        assert (Hxb : In x (files_of includes before)).
        { apply (files_in includes rk includes_rk rk_depth). eauto. }
        destruct (in_split _ _ Hxb) as [u [v Ex]].
        assert (K : incl (lacking x) u).
        { apply (H u x (v ++ o' ++ o)). rewrite E1, Ex, <- !app_assoc. reflexivity. }
        destruct x; try discriminate Hb; [exact (Nt h' Hh' Hx)| |];
          apply Ntb; rewrite Ex; apply in_or_app; left; apply K; now left. }
      pose proof (first_relevant includes rk includes_rk rk_depth relevant relevant_up before h Nr)
        as F.
      rewrite <- E2' in F.
      assert (Fb : filter base o' = filter base (files_of includes [h])).
      { rewrite <- (filter_filter base relevant o' base_relevant), F.
        apply filter_filter, base_relevant. }
      pose proof (first_base_table h) as T. unfold first_base in T. rewrite <- Fb in T.
      destruct (hd_error (filter base o')) as [y|] eqn:Ey.
      * destruct (hd_filter_split base o' y Ey) as [u [v [Eo Hu]]].
        assert (K : incl (lacking y) (files_of includes before ++ u)).
        { apply (H _ y (v ++ o)). rewrite E1, Eo, <- !app_assoc. reflexivity. }
        assert (Hy : base y = true).
        { assert (In y (filter base o')) as Hy
            by (destruct (filter base o'); [discriminate|injection Ey as ->; now left]).
          now apply filter_In in Hy. }
        destruct y; try discriminate Hy.
        -- assert (R : reachb h h_g3opsAdd_same || reachb h h_g3opsSub_same = true).
           { apply orb_true_iff. destruct Hs; [left|right]; now apply reachb_iff. }
           rewrite R in T. exact T.
        -- exfalso. specialize (K h_g3traits (or_introl eq_refl)).
           apply in_app_or in K as [K|K]; [easy|]. specialize (Hu _ K). discriminate.
        -- exfalso. specialize (K h_g3traits (or_introl eq_refl)).
           apply in_app_or in K as [K|K]; [easy|]. specialize (Hu _ K). discriminate.
      * exfalso.
        assert (Hx : exists x, base x = true /\ In x (files_of includes [h])).
        { destruct Hs as [Hs|Hs]; eexists; (split; [|apply (reaches_files includes rk includes_rk
            rk_depth); exact Hs]); reflexivity. }
        destruct Hx as [x [Hb Hx]].
        assert (Kx : In x (filter base o')).
        { rewrite Fb. apply filter_In. auto. }
        destruct (filter base o'); [destruct Kx|discriminate].
  - intros [H1 H2] a x b He.
    destruct (files_split includes rk includes_rk rk_depth l a x b He)
      as (before & h & after & o1 & o2 & El & Eo & Ea & Hr).
    assert (Hs : same_ops x -> In h_g3traits a).
    { intro Hx.
      assert (Hb : base x = true) by (destruct Hx as [-> | ->]; reflexivity).
      destruct (H2 before h after El) as [[h' [Hh' Hr']]|Hsu].
      { destruct Hx as [-> | ->]; [now left|now right]. }
      - rewrite Ea. apply in_or_app. left.
        apply (files_in includes rk includes_rk rk_depth). eauto.
      - destruct (existsb (fun h' => reachb h' h_g3traits) before) eqn:Eb.
        { apply existsb_exists in Eb as [h' [Hh' Hr']]. rewrite Ea. apply in_or_app. left.
          apply (files_in includes rk includes_rk rk_depth). exists h'.
          split; [exact Hh'|now apply reachb_iff]. }
        assert (Nt : forall h', In h' before -> ~ reaches includes h' h_g3traits).
        { intros h' Hh' Hr'. apply reachb_iff in Hr'.
          assert (K : existsb (fun h' => reachb h' h_g3traits) before = true)
            by (apply existsb_exists; eauto).
          rewrite K in Eb. discriminate. }
        assert (Nr : forall h', In h' before -> relevant h' = false).
        { intros h' Hh'. destruct (relevant h') eqn:Er; [exfalso|reflexivity].
          apply relevant_iff in Er as [y [Hy Hby]].
          assert (Hy' : reaches includes h' h_g3opsAdd_same \/ reaches includes h' h_g3opsSub_same).
          { destruct y; try discriminate Hby; [now apply Nt in Hy|now left|now right]. }
          destruct (in_split _ _ Hh') as [u [v Eu]].
          destruct (H2 u h' (v ++ h :: after)) as [[h'' [Hh'' Hr'']]|S'].
          - rewrite El, Eu, <- app_assoc. reflexivity.
          - exact Hy'.
          - apply (Nt h''); [rewrite Eu; apply in_or_app; now left|exact Hr''].
          - pose proof (sufficient_table h') as Ts. rewrite S' in Ts. cbn [implb] in Ts.
            apply andb_prop in Ts as [Ts _]. apply (Nt h' Hh'). now apply reachb_iff. }
        pose proof (first_relevant includes rk includes_rk rk_depth relevant relevant_up
                      before h Nr) as F.
        rewrite Eo in F.
        assert (Fb : filter base (o1 ++ x :: o2) = filter base (files_of includes [h])).
        { rewrite <- (filter_filter base relevant _ base_relevant), F.
          apply filter_filter, base_relevant. }
        pose proof (first_base_table h) as T. unfold first_base in T. rewrite <- Fb in T.
        rewrite Hsu in T. cbn [negb] in T.
        destruct (hd_error (filter base (o1 ++ x :: o2))) as [y|] eqn:Ey.
        + assert (y = h_g3traits) as -> by (destruct y; try reflexivity; discriminate).
          rewrite Ea. apply in_or_app. right.
          apply (hd_filter base o1 x o2 _ Ey Hb). destruct Hx as [-> | ->]; discriminate.
        + exfalso.
          assert (Kx : In x (filter base (o1 ++ x :: o2)))
            by (apply filter_In; split; [apply in_elt|exact Hb]).
          destruct (filter base (o1 ++ x :: o2)); [destruct Kx|discriminate]. }
    assert (Hp : x = h_g3_private -> In h_std a).
    { intros ->. destruct before as [|h0 before].
      - cbn [app] in El. subst l.
        assert (Hh : h <> h_g3_private) by (intros ->; now apply H1).
        destruct (std_table h Hh) as [_ T].
        change (files_of includes [h] = o1 ++ h_g3_private :: o2) in Eo.
        rewrite Eo in T. rewrite Ea. apply in_or_app. right.
        apply (hd_filter _ _ _ _ _ T); [reflexivity|discriminate].
      - rewrite Ea. apply in_or_app. left. apply (files_in includes rk includes_rk rk_depth).
        exists h0. split; [now left|]. apply reachb_iff.
        assert (Hh : h0 <> h_g3_private) by (intros ->; subst l; now apply H1).
        now destruct (std_table h0 Hh). }
    unfold same_ops in Hs.
    destruct x; cbn [lacking]; try apply incl_nil_l; intros y [<-|[]]; auto.
Qed.

(** ** consequences *)

Lemma text_complete l : In h_engabra l \/ In h_Engabra l ->
  forall n, library_name n -> declared n (text_of includes l).
Proof.
  intros Hl n (h & d & Hd & Hn). exists d. split; [|exact Hn].
  unfold text_of. apply in_flat_map.
  assert (T : forall h, h = h_Engabra \/ reachb h_engabra h = true).
  { intro k. destruct (header_eq_dec k h_Engabra) as [|Hk]; [now left|right].
    assert (E : (if header_eq_dec k h_Engabra then true else reachb h_engabra k) = true).
    { revert k Hk. intros k _. revert k. apply for_all_headers. vm_compute. reflexivity. }
    destruct (header_eq_dec k h_Engabra); [contradiction|exact E]. }
  destruct (T h) as [->|R]; [destruct Hd|].
  exists h. split; [|exact Hd]. apply (files_in includes rk includes_rk rk_depth).
  apply reachb_iff in R. destruct Hl as [Hl|Hl].
  - exists h_engabra. auto.
  - exists h_Engabra. split; [exact Hl|]. eapply reaches_step; [|exact R]. now left.
Qed.

Lemma text_after_traits l1 l2 :
  accepted (text_of includes l1) = true ->
  (exists h, In h l1 /\ reaches includes h h_g3traits) ->
  accepted (text_of includes (l1 ++ l2)) = true.
Proof.
  rewrite !accepted_well_started. intros [H1 H2] [h0 [Hh0 Hr0]]. split.
  - destruct l1; [destruct Hh0|exact H1].
  - intros before h after He Hs. apply split_app in He as [[b' [E1 E2]]|[a' [E1 E2]]].
    + exact (H2 before h b' E1 Hs).
    + left. exists h0. subst before. split; [apply in_or_app; now left|exact Hr0].
Qed.

Definition lacking_repaired (x : header) : list header :=
  match x with h_g3_private => [h_std] | _ => [] end.

Lemma repaired_complete : forallb (complete repaired lacking_repaired) all_headers = true.
Proof. vm_compute. reflexivity. Qed.

Lemma std_table_repaired_all h :
  (if header_eq_dec h h_g3_private then true
   else is_in h_std (files_of repaired [h]) &&
        match hd_error (filter std_base (files_of repaired [h])) with
        | Some y => if header_eq_dec y h_std then true else false
        | None => false
        end) = true.
Proof. revert h. apply for_all_headers. vm_compute. reflexivity. Qed.

Lemma std_table_repaired h : h <> h_g3_private ->
  is_in h_std (files_of repaired [h]) = true /\ hd_error (filter std_base (files_of repaired [h])) = Some h_std.
Proof.
  intro Hh. pose proof (std_table_repaired_all h) as T.
  destruct (header_eq_dec h h_g3_private) as [|_]; [contradiction|].
  apply andb_prop in T as [T1 T2]. split; [exact T1|].
  destruct (hd_error (filter std_base (files_of repaired [h]))) as [y|]; [|discriminate].
  destruct (header_eq_dec y h_std) as [->|]; [reflexivity|discriminate].
Qed.

Lemma repaired_accepted l : hd_error l <> Some h_g3_private ->
  accepted (text_of repaired l) = true.
Proof.
  intro H1. apply (text_accepted repaired repaired_rk lacking_repaired repaired_complete).
  intros a x b He.
  assert (Hp : x = h_g3_private -> In h_std a).
  { intros ->.
    destruct (files_split repaired rk repaired_rk rk_depth l a _ b He)
      as (before & h & after & o1 & o2 & El & Eo & Ea & Hr).
    destruct before as [|h0 before].
    - cbn [app] in El. subst l.
      assert (Hh : h <> h_g3_private) by (intros ->; now apply H1).
      destruct (std_table_repaired h Hh) as [_ T].
      change (files_of repaired [h] = o1 ++ h_g3_private :: o2) in Eo.
      rewrite Eo in T. rewrite Ea. apply in_or_app. right.
      apply (hd_filter _ _ _ _ _ T); [reflexivity|discriminate].
    - rewrite Ea. apply in_or_app. left. apply (files_in repaired rk repaired_rk rk_depth).
      exists h0. split; [now left|].
      assert (Hh : h0 <> h_g3_private) by (intros ->; subst l; now apply H1).
      apply (reaches_files repaired rk repaired_rk rk_depth). apply is_in_iff.
      now destruct (std_table_repaired h0 Hh). }
  destruct x; cbn [lacking_repaired]; try apply incl_nil_l; intros y [<-|[]]; auto.
Qed.

(** operators that g3publish.hpp makes visible *)
Definition is_operator (n : string) : bool :=
  prefix "operator+(" n || prefix "operator-(" n || prefix "operator*(" n.

Lemma published l a b :
  files_of includes l = a ++ h_g3publish :: b ->
  forall n, library_name n -> is_operator n = true ->
    declared n (flat_map declarations a).
Proof.
  intros He n (h & d & Hd & Hn) Ho.
  assert (T : forall h, (reachb h_g3publish h && negb (if header_eq_dec h h_g3publish then true else false)
                || negb (existsb is_operator (names (declarations h)))) = true).
  { apply for_all_headers. vm_compute. reflexivity. }
  specialize (T h). apply orb_true_iff in T as [T|T].
  - apply andb_prop in T as [T1 T2]. exists d. split; [|exact Hn].
    apply in_flat_map. exists h. split; [|exact Hd].
    apply (files_order includes rk includes_rk rk_depth l a h_g3publish b h He).
    + now apply reachb_iff.
    + destruct (header_eq_dec h h_g3publish); [discriminate|assumption].
  - exfalso. assert (K : existsb is_operator (names (declarations h)) = true).
    { apply existsb_exists. exists n. split; [|exact Ho]. unfold names.
      apply in_flat_map. eauto. }
    rewrite K in T. discriminate.
Qed.

(** ** the statements about all sequences *)

Lemma includes_once l :
  NoDup (files_of includes l) /\
  no_repetition (text_of includes l) /\
  (forall x, In x (files_of includes l) <->
             exists h, In h l /\ reaches includes h x) /\
  (forall before x after y,
     files_of includes l = before ++ x :: after ->
     reaches includes x y -> y <> x -> In y before).
Proof.
  destruct (text_once includes includes_rk l) as [H1 H2].
  split; [exact H1|]. split; [exact H2|]. split.
  - exact (files_in includes rk includes_rk rk_depth l).
  - intros before x after y. apply (files_order includes rk includes_rk rk_depth).
Qed.

Lemma main_header l :
  in_order (text_of includes (h_engabra :: l)) /\
  forall n, library_name n -> declared n (text_of includes (h_engabra :: l)).
Proof.
  split.
  - apply accepted_iff. apply (text_after_traits [h_engabra] l).
    + vm_compute. reflexivity.
    + exists h_engabra. split; [now left|]. apply reachb_iff. vm_compute. reflexivity.
  - apply text_complete. left. now left.
Qed.

Lemma any_order_refuted :
  ~ in_order (text_of includes [h_g3publish]) /\
  ~ in_order (text_of includes [h_g3opsAdd]) /\
  ~ in_order (text_of includes [h_g3type; h_g3opsSub]) /\
  length (filter (fun h => negb (accepted (text_of includes [h]))) all_headers) = 32.
Proof.
  assert (F : forall t, accepted t = false -> ~ in_order t).
  { intros t H K. apply accepted_iff in K. rewrite K in H. discriminate. }
  split; [apply F; vm_compute; reflexivity|].
  split; [apply F; vm_compute; reflexivity|].
  split; [apply F; vm_compute; reflexivity|].
  vm_compute. reflexivity.
Qed.

Lemma sufficient_list h :
  sufficient h = true <-> In h [h_g3opsMul; h_g3ops; h_g3func; h_engabra; h_Engabra].
Proof.
  split.
  - destruct h; intro H; try discriminate H; cbn; tauto.
  - intros [<-|[<-|[<-|[<-|[<-|[]]]]]]; reflexivity.
Qed.

Lemma any_order_exact l :
  in_order (text_of includes l) <->
  hd_error l <> Some h_g3_private /\
  forall before h after,
    l = before ++ h :: after ->
    reaches includes h h_g3opsAdd_same \/ reaches includes h h_g3opsSub_same ->
    (exists h', In h' before /\ reaches includes h' h_g3traits) \/
    In h [h_g3opsMul; h_g3ops; h_g3func; h_engabra; h_Engabra].
Proof.
  rewrite <- accepted_iff, accepted_well_started. unfold well_started.
  split; intros [H1 H2]; (split; [exact H1|]); intros before h after He Hs;
    destruct (H2 before h after He Hs) as [K|K]; (now left) || (right; now apply sufficient_list).
Qed.

Lemma hidden_from_tests l : in_order (text_of includes (checks_hpp ++ l)).
Proof.
  apply accepted_iff. apply text_after_traits.
  - vm_compute. reflexivity.
  - exists h_g3io. split; [now left|]. apply reachb_iff. vm_compute. reflexivity.
Qed.

Lemma repaired_in_order l :
  hd_error l <> Some h_g3_private -> in_order (text_of repaired l).
Proof. intro H. apply accepted_iff. now apply repaired_accepted. Qed.

Lemma example_names :
  library_name "operator*(MultiVector,MultiVector)" /\
  declared "operator-(Vector,Vector)" (text_of includes [h_engabra]) /\
  ~ declared "operator-(Vector,Vector)" (text_of includes [h_g3opsMul_Vector]).
Proof.
  split; [|split].
  - assert (H : In "operator*(MultiVector,MultiVector)"%string
                  (names (declarations h_g3opsMul_MultiVector)))
      by (apply existsb_eqb; vm_compute; reflexivity).
    apply in_flat_map in H as [d [Hd Hn]]. exists h_g3opsMul_MultiVector, d. easy.
  - apply names_declared, existsb_eqb. vm_compute. reflexivity.
  - intro H. apply names_declared, existsb_eqb in H. vm_compute in H. discriminate.
Qed.

Lemma example_published :
  accepted (text_of includes [h_g3traits; h_g3publish]) = true /\
  exists before after,
    files_of includes [h_g3traits; h_g3publish] = before ++ h_g3publish :: after.
Proof.
  split; [vm_compute; reflexivity|]. apply in_split, is_in_iff. vm_compute. reflexivity.
Qed.
