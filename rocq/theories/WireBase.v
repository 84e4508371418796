(** Tools for the proofs about the meaning of generated code: results that are
    not errors, equality of encodings, sorted lists, decimal numbers. *)
From Coq Require Import Sorting.Permutation.
From Verif Require Import Base RustTypes SpecXdr SpecTypes XdrFacts Nom NomFacts Ast ParserModel
  SpecGrammar SpecParse CaseModel SpecCase CaseProofs RustAst GenModel SpecGen GenFacts GenPanic
  SpecItems SpecXdl GenSem.
Set Implicit Arguments.
Unset Strict Implicit.
Local Open Scope list_scope.

(** ** No error, no panic, and a property of the result *)
Definition wp {A} (r : gres A) (Q : A -> Prop) : Prop :=
  match r with GOk a => Q a | GFuel => True | GErr _ | GPanic => False end.

Lemma wp_ok {A} (r : gres A) Q a : wp r Q -> r = GOk a -> Q a.
Proof. intros H ->. exact H. Qed.
Lemma wp_mono {A} (r : gres A) (P Q : A -> Prop) : wp r P -> (forall a, P a -> Q a) -> wp r Q.
Proof. destruct r; cbn; auto. Qed.
Lemma wp_bind {A B} (r : gres A) (f : A -> gres B) P Q :
  wp r P -> (forall a, P a -> wp (f a) Q) -> wp (gbind r f) Q.
Proof. destruct r; cbn; auto. Qed.
Lemma wp_gmap {A B} (f : A -> gres B) l (P : A -> B -> Prop) :
  (forall a, In a l -> wp (f a) (P a)) -> wp (gmap f l) (Forall2 P l).
Proof.
  induction l as [|a l IH]; intros H; cbn; [constructor|].
  apply wp_bind with (P a); [apply H; now left|]. intros b Hb.
  apply wp_bind with (Forall2 P l); [apply IH; intros; apply H; now right|].
  intros bs Hbs. now constructor.
Qed.

(** ** Same encoding *)
Definition same_wire (x y : xv) : Prop := forall bs, rfc x bs <-> rfc y bs.
Lemma same_refl x : same_wire x x.
Proof. easy. Qed.
Lemma same_trans x y z : same_wire x y -> same_wire y z -> same_wire x z.
Proof. intros H K bs. now rewrite (H bs). Qed.
Lemma same_sym x y : same_wire x y -> same_wire y x.
Proof. intros H bs. symmetry. apply H. Qed.

Definition same_wires (xs ys : list xv) : Prop := forall bs, rfcs xs bs <-> rfcs ys bs.
Lemma rfcs_cons_iff x xs bs : rfcs (x :: xs) bs <-> exists a b, bs = a ++ b /\ rfc x a /\ rfcs xs b.
Proof.
  split.
  - inversion 1; subst. eauto.
  - intros (a & b & -> & H & K). now constructor.
Qed.
Lemma rfcs_nil_iff bs : rfcs [] bs <-> bs = [].
Proof. split; [now inversion 1|intros ->; constructor]. Qed.
Lemma same_cons x y xs ys : same_wire x y -> same_wires xs ys -> same_wires (x :: xs) (y :: ys).
Proof.
  intros H K bs. rewrite !rfcs_cons_iff. split; intros (a & b & e & h & k); exists a, b.
  - now rewrite <- (H a), <- (K b).
  - now rewrite (H a), (K b).
Qed.
Lemma same_all xs ys : Forall2 same_wire xs ys -> same_wires xs ys.
Proof. induction 1; [easy|now apply same_cons]. Qed.

Lemma rfc_struct_iff l bs : rfc (XStruct l) bs <-> rfcs l bs.
Proof. split; [now inversion 1|now constructor]. Qed.
Lemma rfc_farray_iff l bs : rfc (XFArray l) bs <-> rfcs l bs.
Proof. split; [now inversion 1|now constructor]. Qed.
Lemma rfc_array_iff l bs : rfc (XArray l) bs <-> exists n b, bs = n ++ b /\ unsigned 4 (zlen l) n /\ rfcs l b.
Proof.
  split.
  - inversion 1; subst. eauto.
  - intros (n & b & -> & H & K). now constructor.
Qed.
Lemma rfc_union_iff d a bs : rfc (XUnion d a) bs <-> exists b c, bs = b ++ c /\ rfc d b /\ rfc a c.
Proof.
  split.
  - inversion 1; subst. eauto.
  - intros (b & c & -> & H & K). now constructor.
Qed.
Lemma rfc_some_iff x bs : rfc (XSome x) bs <-> exists b c, bs = b ++ c /\ unsigned 4 1 b /\ rfc x c.
Proof.
  split.
  - inversion 1; subst. eauto.
  - intros (b & c & -> & H & K). now constructor.
Qed.
Lemma rfc_void_iff bs : rfc XVoid bs <-> bs = [].
Proof. split; [now inversion 1|intros ->; constructor]. Qed.

Lemma same_struct xs ys : same_wires xs ys -> same_wire (XStruct xs) (XStruct ys).
Proof. intros H bs. rewrite !rfc_struct_iff. apply H. Qed.
Lemma same_farray xs ys : same_wires xs ys -> same_wire (XFArray xs) (XFArray ys).
Proof. intros H bs. rewrite !rfc_farray_iff. apply H. Qed.
Lemma same_array xs ys : length xs = length ys -> same_wires xs ys -> same_wire (XArray xs) (XArray ys).
Proof.
  intros L H bs. rewrite !rfc_array_iff. unfold zlen. rewrite L.
  split; intros (n & b & e & h & k); exists n, b.
  - now rewrite <- (H b).
  - now rewrite (H b).
Qed.
Lemma same_union d e a b : same_wire d e -> same_wire a b -> same_wire (XUnion d a) (XUnion e b).
Proof.
  intros H K bs. rewrite !rfc_union_iff. split; intros (x & y & i & h & k); exists x, y.
  - now rewrite <- (H x), <- (K y).
  - now rewrite (H x), (K y).
Qed.
Lemma same_some x y : same_wire x y -> same_wire (XSome x) (XSome y).
Proof.
  intros H bs. rewrite !rfc_some_iff. split; intros (b & c & i & h & k); exists b, c.
  - now rewrite <- (H c).
  - now rewrite (H c).
Qed.
Lemma rfcs_one x bs : rfcs [x] bs <-> rfc x bs.
Proof.
  rewrite rfcs_cons_iff. split.
  - intros (a & b & -> & H & K). apply rfcs_nil_iff in K. subst. now rewrite app_nil_r.
  - intros H. exists bs, []. rewrite app_nil_r. repeat split; [easy|constructor].
Qed.
Lemma same_one x : same_wire (XStruct [x]) x.
Proof. intros bs. now rewrite rfc_struct_iff, rfcs_one. Qed.
Lemma same_void : same_wire (XStruct []) XVoid.
Proof. intros bs. now rewrite rfc_struct_iff, rfcs_nil_iff, rfc_void_iff. Qed.
Lemma same_union_void d a : same_wire a XVoid -> same_wire (XUnion d a) d.
Proof.
  intros H bs. rewrite rfc_union_iff. split.
  - intros (x & y & -> & h & k). rewrite (H y), rfc_void_iff in k. subst. now rewrite app_nil_r.
  - intros h. exists bs, []. rewrite app_nil_r, (H []), rfc_void_iff. easy.
Qed.
Lemma same_enum_int z : same_wire (XEnum z) (XInt z).
Proof. intros bs. split; inversion 1; now constructor. Qed.
Lemma same_uint_int z : 0 <= z < 2 ^ 32 -> same_wire (XUInt z) (XInt (as_i32 z)).
Proof.
  intros R bs. unfold as_i32. change (2 ^ 32) with 4294967296 in *. change (2 ^ 31) with 2147483648.
  assert (U : rfc (XUInt z) bs <-> length bs = 4%nat /\ nval bs = z).
  { split; [now inversion 1|now constructor]. }
  rewrite U. clear U.
  split.
  - intros [L <-]. constructor. split; [easy|].
    change (2 ^ (8 * Z.of_nat 4 - 1)) with 2147483648. change (2 ^ (8 * Z.of_nat 4)) with 4294967296.
    destruct (Z.ltb_spec (nval bs) 2147483648); lia.
  - inversion 1 as [? ? [L H']| | | | | | | | | | | | | | | |]; subst. split; [easy|].
    change (2 ^ (8 * Z.of_nat 4 - 1)) with 2147483648 in H'. change (2 ^ (8 * Z.of_nat 4)) with 4294967296 in H'.
    destruct (Z.ltb_spec z 2147483648); lia.
Qed.
Lemma same_enum_uint z : 0 <= z < 2 ^ 31 -> same_wire (XEnum z) (XUInt z).
Proof.
  intros R. apply same_trans with (XInt z); [apply same_enum_int|]. apply same_sym.
  replace z with (as_i32 z) at 2; [apply same_uint_int; lia|].
  unfold as_i32. destruct (Z.ltb_spec z (2 ^ 31)); lia.
Qed.

(** the discriminant of a union, written as a signed number *)
Lemma same_number d z : number_of d z -> 0 <= z < 2 ^ 32 -> (d = XUInt z \/ z < 2 ^ 31) ->
  same_wire d (XInt (as_i32 z)).
Proof.
  intros [->|[->| ->]] R L.
  - destruct L as [L|L]; [discriminate|]. unfold as_i32. destruct (Z.ltb_spec z (2 ^ 31)); [easy|lia].
  - now apply same_uint_int.
  - destruct L as [L|L]; [discriminate|]. unfold as_i32.
    destruct (Z.ltb_spec z (2 ^ 31)); [apply same_enum_int|lia].
Qed.

(** ** Options *)
Lemma guard_some {A} (b : bool) (o : option A) r : guard b o = Some r -> b = true /\ o = Some r.
Proof. now destruct b. Qed.
Lemma obind_some {A B} (o : option A) (f : A -> option B) b :
  obind o f = Some b <-> exists a, o = Some a /\ f a = Some b.
Proof.
  destruct o as [a|]; cbn; split.
  - intros H. now exists a.
  - intros (a' & [= <-] & H). exact H.
  - discriminate.
  - now intros (a & H & _).
Qed.
Lemma omap_some {A B} (f : A -> option B) l bs :
  omap f l = Some bs <-> Forall2 (fun a b => f a = Some b) l bs.
Proof.
  revert bs. induction l as [|a l IH]; intros bs; cbn.
  - split; [intros [= <-]; constructor|now inversion 1].
  - rewrite obind_some. split.
    + intros (b & H & K). apply obind_some in K as (bs' & K & [= <-]). constructor; [easy|]. now apply IH.
    + inversion 1 as [|? b ? bs' H1 H2]; subst. exists b. split; [easy|]. apply obind_some. exists bs'.
      split; [now apply IH|easy].
Qed.
Lemma omap_total {A B} (f : A -> option B) l : (forall a, In a l -> exists b, f a = Some b) ->
  exists bs, omap f l = Some bs.
Proof.
  induction l as [|a l IH]; intros H; [now exists []|]. destruct (H a (or_introl eq_refl)) as [b Hb].
  destruct IH as [bs Hbs]; [intros; apply H; now right|]. exists (b :: bs). cbn. now rewrite Hb, Hbs.
Qed.
Lemma omap_map {A B} (f : A -> option B) g l : (forall a, In a l -> f a = Some (g a)) ->
  omap f l = Some (map g l).
Proof.
  induction l as [|a l IH]; intros H; [easy|]. cbn. rewrite (H a (or_introl eq_refl)). cbn.
  rewrite IH; [easy|]. intros; apply H; now right.
Qed.

Lemma position_nth x l i : position x l = Some i -> nth_error l i = Some x.
Proof.
  revert i. induction l as [|y l IH]; intros i; cbn; [discriminate|].
  destruct (String.eqb_spec x y).
  - intros [= <-]. now subst.
  - destruct (position x l) as [j|]; cbn; [|discriminate]. intros [= <-]. now apply IH.
Qed.
Lemma nth_position x l i : NoDup l -> nth_error l i = Some x -> position x l = Some i.
Proof.
  intros N. revert i. induction N as [|y l H N IH]; intros [|i] e; cbn in *; try discriminate.
  - injection e as ->. now rewrite String.eqb_refl.
  - destruct (String.eqb_spec x y) as [->|]; [|now rewrite (IH _ e)].
    exfalso. apply H. now apply nth_error_In with i.
Qed.
Lemma position_in x l : In x l -> exists i, position x l = Some i.
Proof.
  induction l as [|y l IH]; [easy|]. cbn. intros [->|H].
  - exists O. now rewrite String.eqb_refl.
  - destruct (String.eqb x y); [now exists O|]. destruct (IH H) as [i ->]. now exists (S i).
Qed.

Lemma assoc_in_nodup {A} x (v : A) l : NoDup (map fst l) -> In (x, v) l -> assoc String.eqb x l = Some v.
Proof.
  induction l as [|[y w] l IH]; [easy|]. cbn. intros N [e|H]; inversion N; subst.
  - injection e as -> ->. now rewrite String.eqb_refl.
  - destruct (String.eqb_spec x y) as [->|]; [|auto]. exfalso. apply H2.
    change y with (fst (y, v)). now apply in_map.
Qed.
Lemma assocZ_in_nodup {A} z (v : A) l : NoDup (map fst l) -> In (z, v) l -> assoc Z.eqb z l = Some v.
Proof.
  induction l as [|[y w] l IH]; [easy|]. cbn. intros N [e|H]; inversion N; subst.
  - injection e as -> ->. now rewrite Z.eqb_refl.
  - destruct (Z.eqb_spec z y) as [->|]; [|auto]. exfalso. apply H2.
    change y with (fst (y, v)). now apply in_map.
Qed.
Lemma assocZ_none {A} z (l : list (Z * A)) : assoc Z.eqb z l = None <-> ~ In z (map fst l).
Proof.
  induction l as [|[y w] l IH]; cbn; [easy|]. destruct (Z.eqb_spec z y) as [->|n].
  - split; [discriminate|]. intros H. exfalso. apply H. now left.
  - rewrite IH. split; [intros H [e|K]; [now apply n|now apply H]|intros H K; apply H; now right].
Qed.

(** ** Lists *)
Lemma Forall2_in_l {A B} (P : A -> B -> Prop) l m a : Forall2 P l m -> In a l -> exists b, In b m /\ P a b.
Proof.
  induction 1 as [|x y l m H F IH]; intros []; subst.
  - exists y. split; [now left|easy].
  - destruct IH as (b & K & L); [easy|]. exists b. split; [now right|easy].
Qed.
Lemma Forall2_in_r {A B} (P : A -> B -> Prop) l m b : Forall2 P l m -> In b m -> exists a, In a l /\ P a b.
Proof.
  induction 1 as [|x y l m H F IH]; intros []; subst.
  - exists x. split; [now left|easy].
  - destruct IH as (a & K & L); [easy|]. exists a. split; [now right|easy].
Qed.
Lemma Forall2_impl_in {A B} (P Q : A -> B -> Prop) l m : Forall2 P l m ->
  (forall a b, In a l -> In b m -> P a b -> Q a b) -> Forall2 Q l m.
Proof.
  induction 1 as [|x y l m H F IH]; intros K; constructor.
  - apply K; [now left|now left|easy].
  - apply IH. intros. apply K; [now right|now right|easy].
Qed.
Lemma Forall2_map_eq {A B C} (f : A -> C) (g : B -> C) l m : Forall2 (fun a b => f a = g b) l m -> map f l = map g m.
Proof. induction 1; cbn; congruence. Qed.

Lemma NoDup_map_in {A B} (f : A -> B) l : NoDup l ->
  (forall a b, In a l -> In b l -> f a = f b -> a = b) -> NoDup (map f l).
Proof.
  induction 1 as [|a l H N IH]; intros K; [constructor|]. cbn. constructor.
  - intros Hin. apply in_map_iff in Hin as (b & e & Hb). apply H.
    replace a with b; [easy|]. apply K; [now right|now left|easy].
  - apply IH. intros; apply K; [now right|now right|easy].
Qed.
Lemma NoDup_map_inj {A B} (f : A -> B) l a b : NoDup (map f l) -> In a l -> In b l -> f a = f b -> a = b.
Proof.
  induction l as [|c l IH]; [easy|]. cbn. intros N [->|Ha] [->|Hb] e; inversion N; subst; auto.
  - exfalso. apply H1. rewrite e. now apply in_map.
  - exfalso. apply H1. rewrite <- e. now apply in_map.
Qed.

(** ** Sorting *)
Lemma insert_by_perm {A} key (a : A) l : Permutation (insert_by key a l) (a :: l).
Proof.
  induction l as [|b l IH]; cbn; [easy|]. destruct (_ <=? _); [easy|].
  rewrite IH. apply perm_swap.
Qed.
Lemma sort_by_perm {A} key (l : list A) : Permutation (sort_by key l) l.
Proof. induction l as [|a l IH]; cbn; [easy|]. rewrite insert_by_perm. now constructor. Qed.

Inductive ascending {A} (key : A -> Z) : list A -> Prop :=
| asc_nil : ascending key []
| asc_cons a l : (forall b, In b l -> key a <= key b) -> ascending key l -> ascending key (a :: l).
Lemma insert_by_asc {A} key (a : A) l : ascending key l -> ascending key (insert_by key a l).
Proof.
  induction 1 as [|b l H S IH]; cbn; [constructor; [easy|constructor]|].
  destruct (Z.leb_spec (key a) (key b)).
  - constructor; [|now constructor]. intros c [->|Hc]; [easy|]. specialize (H c Hc). lia.
  - constructor; [|easy]. intros c Hc. apply insert_by_in in Hc as [->|Hc]; [lia|auto].
Qed.
Lemma sort_by_asc {A} key (l : list A) : ascending key (sort_by key l).
Proof. induction l as [|a l IH]; cbn; [constructor|now apply insert_by_asc]. Qed.

(** strictly ascending from [s] *)
Inductive climbs {A} (key : A -> Z) : Z -> list A -> Prop :=
| cl_nil s : climbs key s []
| cl_cons s a l : s <= key a -> climbs key (key a + 1) l -> climbs key s (a :: l).
Lemma asc_climbs {A} key (l : list A) : ascending key l -> NoDup (map key l) ->
  forall s, (forall a, In a l -> s <= key a) -> climbs key s l.
Proof.
  induction 1 as [|a l H S IH]; intros N s B; [constructor|]. inversion N; subst. constructor.
  - apply B. now left.
  - apply IH; [easy|]. intros b Hb. specialize (H b Hb).
    assert (key a <> key b); [|lia]. intros e. apply H2. rewrite e. now apply in_map.
Qed.
Lemma sorted_climbs {A} key (l : list A) s : NoDup (map key l) -> (forall a, In a l -> s <= key a) ->
  climbs key s (sort_by key l).
Proof.
  intros N B. apply asc_climbs.
  - apply sort_by_asc.
  - eapply Permutation_NoDup; [|exact N]. apply Permutation_map. symmetry. apply sort_by_perm.
  - intros a H. apply B. now apply sort_by_in in H.
Qed.

Lemma zrange_split a b c : a <= b <= c -> zrange a c = zrange a b ++ zrange b c.
Proof.
  intros H. unfold zrange.
  replace (Z.to_nat (c - a)) with (Z.to_nat (b - a) + Z.to_nat (c - b))%nat by lia.
  rewrite seq_app, map_app. f_equal. rewrite Nat.add_0_l.
  assert (G : forall n k, map (fun k => a + Z.of_nat k) (seq (Z.to_nat (b - a) + k) n) =
              map (fun k => b + Z.of_nat k) (seq k n)).
  { induction n as [|n IH]; intros k; [easy|]. cbn [seq map]. f_equal; [lia|].
    rewrite <- (IH (S k)). f_equal. f_equal. lia. }
  rewrite <- (G _ O). do 2 f_equal. lia.
Qed.
Lemma zrange_one a : zrange a (a + 1) = [a].
Proof. unfold zrange. replace (Z.to_nat (a + 1 - a)) with 1%nat by lia. cbn [seq map]. f_equal. lia. Qed.
Lemma zrange_nil a b : b <= a -> zrange a b = [].
Proof. intros H. unfold zrange. replace (Z.to_nat (b - a)) with O by lia. easy. Qed.
Lemma zrange_nth a b i : (i < Z.to_nat (b - a))%nat -> nth_error (zrange a b) i = Some (a + Z.of_nat i).
Proof.
  intros H. unfold zrange. rewrite nth_error_map. rewrite nth_error_nth' with (d := O) by now rewrite seq_length.
  cbn. rewrite seq_nth by easy. f_equal.
Qed.
Lemma zrange_nodup a b : NoDup (zrange a b).
Proof.
  unfold zrange. apply NoDup_map_in; [apply seq_NoDup|]. intros x y _ _ e. lia.
Qed.

(** ** The names of reserved variants *)
Definition dval (t : text) : Z := fold_left (fun v c => v * 10 + (Z.of_N (N_of_ascii c) - 48)) t 0.
Lemma dval_acc t : forall v, fold_left (fun v c => v * 10 + (Z.of_N (N_of_ascii c) - 48)) t v =
  v * 10 ^ zlen t + dval t.
Proof.
  unfold dval. induction t as [|c t IH]; intros v.
  - cbn. unfold zlen. cbn. lia.
  - cbn [fold_left]. rewrite IH. rewrite (IH (0 * 10 + _)).
    replace (zlen (c :: t)) with (zlen t + 1) by (unfold zlen; cbn [length]; lia).
    rewrite Z.pow_add_r by (unfold zlen; lia). lia.
Qed.
Lemma digit_val z : 0 <= z < 10 -> Z.of_N (N_of_ascii (ascii_of_N (Z.to_N (48 + z)))) - 48 = z.
Proof. intros H. rewrite N_ascii_embedding by lia. lia. Qed.
Lemma digits_pos_val n : forall z acc, 0 <= z < 10 ^ Z.of_nat n ->
  dval (digits_pos n z acc) = z * 10 ^ zlen acc + dval acc.
Proof.
  induction n as [|n IH]; intros z acc H.
  - cbn in H. assert (z = 0) by lia. subst. cbn [digits_pos]. lia.
  - assert (D : 0 <= z mod 10 < 10) by (apply Z.mod_pos_bound; lia).
    assert (V : dval (ascii_of_N (Z.to_N (48 + z mod 10)) :: acc) = z mod 10 * 10 ^ zlen acc + dval acc).
    { unfold dval at 1. cbn [fold_left]. rewrite dval_acc, digit_val by easy. lia. }
    cbn [digits_pos]. destruct (Z.ltb_spec z 10).
    + rewrite V. rewrite Z.mod_small by lia. lia.
    + rewrite IH, V.
      * replace (zlen (_ :: acc)) with (zlen acc + 1) by (unfold zlen; cbn [length]; lia).
        rewrite Z.pow_add_r by (unfold zlen; lia).
        assert (E : z = 10 * (z / 10) + z mod 10) by (apply Z.div_mod; lia).
        rewrite E at 3. change (10 ^ 1) with 10. ring.
      * rewrite Nat2Z.inj_succ, Z.pow_succ_r in H by lia. split; [apply Z.div_pos; lia|].
        apply Z.div_lt_upper_bound; lia.
Qed.
Lemma reserved_inj y z : 0 <= y < 10 ^ 20 -> 0 <= z < 10 ^ 20 -> reserved_name y = reserved_name z -> y = z.
Proof.
  intros Hy Hz e. unfold reserved_name in e.
  apply (f_equal list_ascii_of_string) in e. rewrite !list_ascii_of_string_of_list_ascii in e.
  apply app_inv_head in e. unfold to_decimal in e.
  destruct (Z.ltb_spec y 0); [lia|]. destruct (Z.ltb_spec z 0); [lia|].
  apply (f_equal dval) in e. rewrite !digits_pos_val in e by (change (10 ^ Z.of_nat 20) with (10 ^ 20); lia).
  change (zlen (@nil ascii)) with 0 in e. change (dval []) with 0 in e. rewrite Z.pow_0_r in e. lia.
Qed.
Lemma reserved_not_camel z x : reserved_name z <> camel x.
Proof.
  intros e. unfold reserved_name, camel in e.
  apply (f_equal list_ascii_of_string) in e. rewrite !list_ascii_of_string_of_list_ascii in e.
  pose proof (camel_no_us (chars x)) as H. rewrite <- e in H. discriminate.
Qed.

Lemma NoDup_app {A} (l m : list A) : NoDup l -> NoDup m -> (forall x, In x l -> ~ In x m) -> NoDup (l ++ m).
Proof.
  induction 1 as [|a l N ND IH]; intros M D; [easy|]. cbn. constructor.
  - intros H. apply in_app_or in H as [H|H]; [easy|]. now apply (D a); [left|].
  - apply IH; [easy|]. intros x Hx. apply D. now right.
Qed.

Lemma Forall2_len {A B} (P : A -> B -> Prop) l m : Forall2 P l m -> length l = length m.
Proof. induction 1; cbn; congruence. Qed.

Lemma omap_mapped {A B C} (h : A -> B) (f : B -> option C) (g : A -> C) l :
  (forall a, In a l -> f (h a) = Some (g a)) -> omap f (map h l) = Some (map g l).
Proof.
  induction l as [|a l IH]; intros H; [easy|]. cbn. rewrite (H a) by now left. cbn.
  rewrite IH; [easy|]. intros. apply H. now right.
Qed.
