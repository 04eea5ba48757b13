(** * The operators declared in the headers and those of the model: proofs. *)

From Coq Require Import String List Bool.
From Verif Require Import Num Types B64 Traits OpsAdd OpsSub OpsMul OpsUni Func Compare Io.
From Verif Require Import SpecCl AlgFacts AlgThm Headers Incl SpecIncl InclFacts InclLib SpecOver.
Import ListNotations.
Local Open Scope string_scope.

Definition all_types : list ty := [TDub; TSca; TVec; TBiv; TTri; TSpin; TImsp; TCplx; TDplx; TMvec].

Lemma for_all_types (f : ty -> bool) : forallb f all_types = true -> forall t, f t = true.
Proof. intros H t. rewrite forallb_forall in H. apply H. destruct t; cbn; tauto. Qed.

Lemma for_all_pairs (f : ty -> ty -> bool) :
  forallb (fun a => forallb (f a) all_types) all_types = true -> forall a b, f a b = true.
Proof. intros H a b. exact (for_all_types _ (for_all_types _ H a) b). Qed.

Definition declaredb (n : string) (t : list decl) : bool := existsb (String.eqb n) (names t).

Lemma declaredb_iff n t : declaredb n t = true <-> declared n t.
Proof. unfold declaredb. rewrite existsb_eqb. apply names_declared. Qed.

Definition whole : list decl := flat_map declarations all_headers.

Lemma whole_iff n : declared n whole <-> library_name n.
Proof.
  unfold declared, library_name, whole. split.
  - intros (d & Hd & Hn). apply in_flat_map in Hd as (h & _ & Hd). eauto.
  - intros (h & d & Hd & Hn). exists d. split; [|exact Hn]. apply in_flat_map. exists h. split; [apply all_headers_all|exact Hd].
Qed.

Lemma text_library incs n l : declared n (text_of incs l) -> library_name n.
Proof. intros (d & Hd & Hn). apply in_flat_map in Hd as (h & _ & Hd). exists h, d. auto. Qed.

Lemma main_iff n l : declared n (text_of includes (h_engabra :: l)) <-> declaredb n whole = true.
Proof.
  rewrite declaredb_iff, whole_iff. split; [apply text_library|]. intro H. exact (proj2 (main_header l) n H).
Qed.

Definition some {A} (o : option A) : bool := match o with Some _ => true | None => false end.

Lemma some_iff {A} (o : option A) : some o = true <-> o <> None.
Proof. destruct o; cbn; split; congruence. Qed.

Lemma eqb_iff x y : eqb x y = true -> x = true <-> y = true.
Proof. intro H. apply eqb_prop in H. now subst. Qed.

Lemma ty_eqb_iff a b : ty_eqb a b = true <-> a = b.
Proof. destruct a, b; cbn; split; congruence. Qed.

Definition is_ty (a b : ty) : bool := ty_eqb a b.

(** ** sums, differences and products *)

Lemma sums l a b :
  declared (binary "+" a b) (text_of includes (h_engabra :: l)) <-> addTy a b <> None.
Proof.
  rewrite main_iff, <- some_iff. apply eqb_iff. revert a b.
  apply (for_all_pairs (fun a b => eqb (declaredb (binary "+" a b) whole) (some (addTy a b)))).
  vm_compute. reflexivity.
Qed.

Lemma sums_grades l a b :
  declared (binary "+" a b) (text_of includes (h_engabra :: l)) <->
  a <> TDub /\ b <> TDub /\
  exists c, c <> TDub /\ forall n, has_grade c n = orb (has_grade a n) (has_grade b n).
Proof.
  rewrite sums. split.
  - destruct (addTy a b) as [c|] eqn:E; [|congruence]. intros _.
    apply add_table in E as (Ha & Hb & Hc & H). eauto.
  - intros (Ha & Hb & c & Hc & H). rewrite (proj2 (add_table a b c)); [discriminate|]. auto.
Qed.

Lemma differences l a b :
  declared (binary "-" a b) (text_of includes (h_engabra :: l)) <-> subTy a b <> None.
Proof.
  rewrite main_iff, <- some_iff. apply eqb_iff. revert a b.
  apply (for_all_pairs (fun a b => eqb (declaredb (binary "-" a b) whole) (some (subTy a b)))).
  vm_compute. reflexivity.
Qed.

Lemma products l a b :
  declared (binary "*" a b) (text_of includes (h_engabra :: l)) <-> ~ (a = TDub /\ b = TDub).
Proof.
  rewrite main_iff.
  assert (T : eqb (declaredb (binary "*" a b) whole) (negb (is_ty a TDub && is_ty b TDub)) = true).
  { revert a b. apply (for_all_pairs (fun a b => eqb (declaredb (binary "*" a b) whole) (negb (is_ty a TDub && is_ty b TDub)))).
    vm_compute. reflexivity. }
  rewrite (eqb_iff _ _ T), negb_true_iff, <- not_true_iff_false, andb_true_iff. unfold is_ty. now rewrite !ty_eqb_iff.
Qed.

(** ** functions of one object *)

Definition any {A} (l : list A) : bool := match l with [] => false | _ => true end.
Lemma any_iff {A} (l : list A) : any l = true <-> l <> [].
Proof. destruct l; cbn; split; congruence. Qed.

Definition all_fnames : list fname :=
  [f_neg; f_add_same; f_sub_same; f_magSq; f_isValid; f_nearlyEquals; f_fixed; f_enote; f_extract].

Lemma trait_functions l f t :
  declared (spelled f t) (text_of includes (h_engabra :: l)) <-> candidates f t <> [].
Proof.
  rewrite main_iff, <- any_iff. apply eqb_iff.
  assert (T : forallb (fun f => forallb (fun t => eqb (declaredb (spelled f t) whole) (any (candidates f t))) all_types) all_fnames = true).
  { vm_compute. reflexivity. }
  rewrite forallb_forall in T. apply (for_all_types _ (T f ltac:(destruct f; cbn; tauto))).
Qed.

Lemma by_table n (f : ty -> bool) : forallb (fun t => eqb (declaredb (n t) whole) (f t)) all_types = true ->
  forall l t, declared (n t) (text_of includes (h_engabra :: l)) <-> f t = true.
Proof. intros H l t. rewrite main_iff. apply eqb_iff. exact (for_all_types _ H t). Qed.

Lemma not_double t : negb (is_ty t TDub) = true <-> t <> TDub.
Proof. unfold is_ty. rewrite negb_true_iff, <- not_true_iff_false, ty_eqb_iff. reflexivity. Qed.

Definition has_ampSq (t : ty) : bool := match t with TDub => false | _ => true end.

Lemma involutions l t :
  let T := text_of includes (h_engabra :: l) in
  declared (unary "reverse" t) T /\ declared (unary "dual" t) T /\
  (declared (unary "oddverse" t) T <-> t <> TDub) /\ (declared (unary "dirverse" t) T <-> t <> TDub).
Proof.
  intros T. unfold T. rewrite <- !not_double.
  split; [|split; [|split]].
  - apply (by_table (unary "reverse") (fun _ => true)); [vm_compute; reflexivity|reflexivity].
  - apply (by_table (unary "dual") (fun _ => true)); [vm_compute; reflexivity|reflexivity].
  - apply (by_table (unary "oddverse") (fun t => negb (is_ty t TDub))). vm_compute. reflexivity.
  - apply (by_table (unary "dirverse") (fun t => negb (is_ty t TDub))). vm_compute. reflexivity.
Qed.

Lemma functions l t :
  let T := text_of includes (h_engabra :: l) in
  (declared (unary "ampSq" t) T <-> ampSq (F := f64) t <> None) /\
  (declared (unary "exp" t) T <-> t = TBiv \/ t = TSpin \/ t = TMvec) /\
  (declared (unary "inverse" t) T <-> inverse_named t <> []).
Proof.
  intros T. unfold T. split; [|split].
  - assert (E : ampSq (F := f64) t <> None <-> negb (is_ty t TDub) = true).
    { destruct t; cbn; split; congruence. }
    rewrite E. apply (by_table (unary "ampSq") (fun t => negb (is_ty t TDub))). vm_compute. reflexivity.
  - assert (E : t = TBiv \/ t = TSpin \/ t = TMvec <-> (is_ty t TBiv || is_ty t TSpin || is_ty t TMvec) = true).
    { unfold is_ty. rewrite !orb_true_iff, !ty_eqb_iff. tauto. }
    rewrite E. apply (by_table (unary "exp") (fun t => is_ty t TBiv || is_ty t TSpin || is_ty t TMvec)). vm_compute. reflexivity.
  - rewrite <- any_iff. apply (by_table (unary "inverse") (fun t => any (inverse_named t))). vm_compute. reflexivity.
Qed.

Lemma equality_and_text l nanneg t : t <> TDub ->
  let T := text_of includes (h_engabra :: l) in
  (declared (binary "==" t t) T <-> eqeq (F := f64) t <> None) /\
  (declared (stream "<<" t) T <-> insert nanneg t <> None) /\
  (declared (spelled f_fixed t) T <-> fixed nanneg t <> None) /\
  (declared (spelled f_enote t) T <-> enote nanneg t <> None).
Proof.
  intros Ht T. unfold T. split; [|split; [|split]].
  - assert (E : eqeq (F := f64) t <> None <-> (negb (is_ty t TDub) && negb (is_ty t TCplx || is_ty t TDplx)) = true).
    { destruct t; cbn; split; congruence. }
    rewrite E. apply (by_table (fun t => binary "==" t t) (fun t => negb (is_ty t TDub) && negb (is_ty t TCplx || is_ty t TDplx))). vm_compute. reflexivity.
  - assert (E : insert nanneg t <> None <-> negb (is_ty t TDub) = true).
    { destruct t; cbn; split; congruence. }
    rewrite E. apply (by_table (stream "<<") (fun t => negb (is_ty t TDub))). vm_compute. reflexivity.
  - assert (E : fixed nanneg t <> None <-> negb (is_ty t TCplx || is_ty t TDplx) = true).
    { destruct t; cbn; split; congruence. }
    rewrite E. apply (by_table (spelled f_fixed) (fun t => negb (is_ty t TCplx || is_ty t TDplx))). vm_compute. reflexivity.
  - assert (E : enote nanneg t <> None <-> negb (is_ty t TCplx || is_ty t TDplx) = true).
    { destruct t; cbn; split; congruence. }
    rewrite E. apply (by_table (spelled f_enote) (fun t => negb (is_ty t TCplx || is_ty t TDplx))). vm_compute. reflexivity.
Qed.

(** ** which file declares which operator *)

Definition headerb (h k : header) : bool := if header_eq_dec h k then true else false.
Lemma headerb_iff h k : headerb h k = true <-> h = k.
Proof. unfold headerb. destruct (header_eq_dec h k); split; congruence. Qed.

Definition is_file (o : option header) (h : header) : bool := match o with Some k => headerb h k | None => false end.
Lemma is_file_iff o h : is_file o h = true <-> o = Some h.
Proof. destruct o; cbn; [rewrite headerb_iff|]; split; congruence. Qed.

Lemma for_all_files (f : header -> ty -> ty -> bool) :
  forallb (fun h => forallb (fun a => forallb (f h a) all_types) all_types) all_headers = true -> forall h a b, f h a b = true.
Proof. intros H h. apply for_all_pairs. exact (for_all_headers _ H h). Qed.

Definition placed (op : string) (offered : ty -> ty -> bool) (file : ty -> ty -> option header) : bool :=
  forallb (fun h => forallb (fun a => forallb (fun b =>
    eqb (declaredb (binary op a b) (declarations h)) (offered a b && is_file (file a b) h)) all_types) all_types) all_headers.

Lemma placed_iff op offered file : placed op offered file = true -> forall h a b,
  declared (binary op a b) (declarations h) <-> offered a b = true /\ file a b = Some h.
Proof.
  intros H h a b. rewrite <- declaredb_iff, <- is_file_iff, <- andb_true_iff. apply eqb_iff. revert h a b.
  exact (for_all_files _ H).
Qed.

Definition sum_file (a b : ty) : option header := if is_ty a b then Some h_g3opsAdd_same else file_add a.
Definition difference_file (a b : ty) : option header := if is_ty a b then Some h_g3opsSub_same else file_sub a.

Lemma same_split a b (P Q : Prop) : ((if is_ty a b then P else Q) <-> (a = b /\ P) \/ (a <> b /\ Q)).
Proof.
  unfold is_ty. destruct (ty_eqb a b) eqn:E; [apply ty_eqb_iff in E; tauto|].
  assert (a <> b) by (intros ->; rewrite (proj2 (ty_eqb_iff b b) eq_refl) in E; discriminate). tauto.
Qed.

Lemma files h a b :
  (declared (binary "+" a b) (declarations h) <->
     addTy a b <> None /\ ((a = b /\ h = h_g3opsAdd_same) \/ (a <> b /\ file_add a = Some h))) /\
  (declared (binary "-" a b) (declarations h) <->
     subTy a b <> None /\ ((a = b /\ h = h_g3opsSub_same) \/ (a <> b /\ file_sub a = Some h))) /\
  (declared (binary "*" a b) (declarations h) <-> ~ (a = TDub /\ b = TDub) /\ h = file_mul a).
Proof.
  split; [|split].
  - rewrite (placed_iff "+" (fun a b => some (addTy a b)) sum_file); [|vm_compute; reflexivity].
    rewrite some_iff. apply and_iff_compat_l. rewrite <- same_split. unfold sum_file. destruct (is_ty a b); [|reflexivity].
    split; congruence.
  - rewrite (placed_iff "-" (fun a b => some (subTy a b)) difference_file); [|vm_compute; reflexivity].
    rewrite some_iff. apply and_iff_compat_l. rewrite <- same_split. unfold difference_file. destruct (is_ty a b); [|reflexivity].
    split; congruence.
  - rewrite (placed_iff "*" (fun a b => negb (is_ty a TDub && is_ty b TDub)) (fun a _ => Some (file_mul a))); [|vm_compute; reflexivity].
    rewrite negb_true_iff, <- not_true_iff_false, andb_true_iff. unfold is_ty. rewrite !ty_eqb_iff.
    apply and_iff_compat_l. split; congruence.
Qed.

(** ** both sides *)

Definition both_sides (op : string) (offered : ty -> ty -> bool) (h : header) (t : ty) : bool :=
  forallb (fun b => implb (offered b t) (declaredb (binary op b t) (text_of includes [h]))) all_types.

Lemma both_sides_iff op offered h t : both_sides op offered h t = true <->
  forall b, offered b t = true -> declared (binary op b t) (text_of includes [h]).
Proof.
  unfold both_sides. split.
  - intros H b Hb. pose proof (for_all_types _ H b) as K. cbv beta in K. rewrite Hb in K. now apply declaredb_iff.
  - intro H. apply forallb_forall. intros b _. destruct (offered b t) eqn:E; [|reflexivity].
    apply declaredb_iff, H, E.
Qed.

Lemma left_operand t h :
  (file_add t = Some h -> forall b, addTy t b <> None -> declared (binary "+" t b) (text_of includes [h])) /\
  (file_sub t = Some h -> forall b, subTy t b <> None -> declared (binary "-" t b) (text_of includes [h])).
Proof.
  assert (T : forall h t b,
    implb (is_file (file_add t) h && some (addTy t b)) (declaredb (binary "+" t b) (text_of includes [h])) = true /\
    implb (is_file (file_sub t) h && some (subTy t b)) (declaredb (binary "-" t b) (text_of includes [h])) = true).
  { clear. intros h t b. apply andb_prop. revert h t b.
    apply (for_all_files (fun h t b =>
      implb (is_file (file_add t) h && some (addTy t b)) (declaredb (binary "+" t b) (text_of includes [h])) &&
      implb (is_file (file_sub t) h && some (subTy t b)) (declaredb (binary "-" t b) (text_of includes [h])))).
    vm_compute. reflexivity. }
  split; intros Hf b Hb; destruct (T h t b) as [T1 T2]; apply declaredb_iff;
    apply some_iff in Hb; apply is_file_iff in Hf.
  - rewrite Hf, Hb in T1. exact T1.
  - rewrite Hf, Hb in T2. exact T2.
Qed.

Lemma right_operand t h :
  (file_add t = Some h ->
     ((forall b, addTy b t <> None -> declared (binary "+" b t) (text_of includes [h])) <-> t = TMvec)) /\
  (file_sub t = Some h ->
     ((forall b, subTy b t <> None -> declared (binary "-" b t) (text_of includes [h])) <-> t = TMvec)).
Proof.
  assert (A : forall u k, file_add u = Some k -> both_sides "+" (fun a b => some (addTy a b)) k u = is_ty u TMvec).
  { clear. intros u k. destruct u; intro H; try discriminate; injection H as <-; vm_compute; reflexivity. }
  assert (S : forall u k, file_sub u = Some k -> both_sides "-" (fun a b => some (subTy a b)) k u = is_ty u TMvec).
  { clear. intros u k. destruct u; intro H; try discriminate; injection H as <-; vm_compute; reflexivity. }
  split; intro Hf.
  - rewrite <- (ty_eqb_iff t TMvec). fold (is_ty t TMvec). rewrite <- (A t h Hf), both_sides_iff.
    split; intros H b Hb; apply H; now apply some_iff.
  - rewrite <- (ty_eqb_iff t TMvec). fold (is_ty t TMvec). rewrite <- (S t h Hf), both_sides_iff.
    split; intros H b Hb; apply H; now apply some_iff.
Qed.

(** ** the files that gather others *)

Definition gathers (p : string -> bool) (h : header) : bool :=
  forallb (fun k => reachb h k || negb (existsb p (names (declarations k)))) all_headers.

Lemma gathers_all p h : gathers p h = true -> forall l n, In h l -> library_name n -> p n = true ->
  declared n (text_of includes l).
Proof.
  intros H l n Hl (k & d & Hd & Hn) Hp.
  pose proof (for_all_headers _ H k) as K. cbv beta in K. apply orb_prop in K as [K|K].
  - exists d. split; [|exact Hn]. apply in_flat_map. exists k. split; [|exact Hd].
    apply (files_in includes rk includes_rk rk_depth). exists h. split; [exact Hl|]. now apply reachb_iff.
  - apply negb_true_iff, not_true_iff_false in K. destruct K. apply existsb_exists. exists n. split; [|exact Hp].
    unfold names. apply in_flat_map. eauto.
Qed.

Lemma gathered l n : library_name n ->
  (In h_g3opsAdd l -> prefix "operator+(" n = true -> declared n (text_of includes l)) /\
  (In h_g3opsSub l -> prefix "operator-(" n = true -> is_binary n = true -> declared n (text_of includes l)) /\
  (In h_g3opsMul l -> prefix "operator*(" n = true -> declared n (text_of includes l)) /\
  (In h_g3ops l -> prefix "operator+(" n || prefix "operator-(" n || prefix "operator*(" n = true -> declared n (text_of includes l)).
Proof.
  intro Hn. split; [|split; [|split]].
  - intros Hl Hp. refine (gathers_all (prefix "operator+(") h_g3opsAdd _ l n Hl Hn Hp). vm_compute. reflexivity.
  - intros Hl Hp Hb. refine (gathers_all (fun n => prefix "operator-(" n && is_binary n) h_g3opsSub _ l n Hl Hn _).
    + vm_compute. reflexivity.
    + now rewrite Hp, Hb.
  - intros Hl Hp. refine (gathers_all (prefix "operator*(") h_g3opsMul _ l n Hl Hn Hp). vm_compute. reflexivity.
  - intros Hl Hp.
    refine (gathers_all (fun n => prefix "operator+(" n || prefix "operator-(" n || prefix "operator*(" n) h_g3ops _ l n Hl Hn Hp).
    vm_compute. reflexivity.
Qed.
