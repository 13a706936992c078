(** Property C57: the layout of the structs and the pointer arithmetic are right.

    The model has links in arrays with slots (Mem.v). The code has bytes: it computes the
    address of a link, [uintptr(l.ptr) + uintptr(idx)*linkSize], and reads or writes the
    fields there. Here (LayoutSpec.v) memory is bytes, pointers are addresses, the rules of
    Go's compiler give sizes and offsets, and arithmetic wraps around, on 64-bit and 32-bit
    platforms with either order of bytes. The two agree: the address is that of the slot,
    an access there touches the bytes of that slot and no other, every number that is stored
    fits its field, and a program that runs with bytes has the history that it has with
    slots. *)
From stdpp Require Import base numbers list gmap relations.
From Verif Require Import GoInt Mem Hash Prog Amt Families Spec Guards Client Types Pack Runs Sep PClient ConcClient ConcMapAll TimeTypes KeepSpec GcSpec Gc ReuseSpec Reuse ReuseProg ReuseRuns Props_Types Props_Gc Props_Reuse.
From Verif Require Import LayoutSpec Layout LayoutMem Fits LayoutRuns.
Local Open Scope N_scope.
Local Notation insert := stdpp.base.insert.

(** ** Sizes *)

(** The sizes that the comments of amt.go give for 64-bit platforms: 16 bytes for a link,
    64 for each four links of an array, 512 for a root, whose first line of 64 bytes is
    followed by the items. *)
Theorem C57_sizes_64 : ∀ big, let p := Platform true big in
  linkSize p = 16 /\ (∀ n, size p (array_t (4 * n)) = 64 * n) /\ size p root_t = 512 /\ items_at p = 64 /\ path_at p = 320 /\
  map (offset p link_fields) [0; 1; 2]%nat = [0; 8; 12] /\ map (offset p root_fields) [0; 1; 2; 3; 4]%nat = [0; 16; 24; 32; 40] /\
  size p pathLink_t = 16 /\ align p link_t = 8.
Proof.
  intros big p. subst p. split_and!; try (destruct big; vm_compute; reflexivity). intros n. unfold array_t. cbn [size].
  change (size (Platform true big) link_t) with (linkSize (Platform true big)). replace (linkSize (Platform true big)) with 16 by (destruct big; reflexivity). lia.
Qed.
(** And those on 32-bit platforms. *)
Theorem C57_sizes_32 : ∀ big, let p := Platform false big in
  linkSize p = 12 /\ (∀ n, size p (array_t (4 * n)) = 48 * n) /\ size p root_t = 348 /\ items_at p = 60 /\ path_at p = 252 /\
  map (offset p link_fields) [0; 1; 2]%nat = [0; 4; 8] /\ map (offset p root_fields) [0; 1; 2; 3; 4]%nat = [0; 12; 20; 28; 36] /\
  size p pathLink_t = 8 /\ align p link_t = 4.
Proof.
  intros big p. subst p. split_and!; try (destruct big; vm_compute; reflexivity). intros n. unfold array_t. cbn [size].
  change (size (Platform false big) link_t) with (linkSize (Platform false big)). replace (linkSize (Platform false big)) with 12 by (destruct big; reflexivity). lia.
Qed.

(** In a struct with fields of any types, each field is inside the struct and aligned, and
    no two fields have a byte in common. *)
Theorem C57_struct : ∀ p fs i f, real (GStruct fs) -> fs !! i = Some f ->
  offset p fs i + size p f <= size p (GStruct fs) /\
  (0 < size p (GStruct fs) -> offset p fs i < size p (GStruct fs)) /\
  (∀ base, base mod align p (GStruct fs) = 0 -> (base + offset p fs i) mod align p f = 0) /\
  ∀ j g, (i < j)%nat -> fs !! j = Some g -> offset p fs i + size p f <= offset p fs j.
Proof.
  intros p fs i f Hr E. split_and!.
  - by apply field_in.
  - by eapply field_inside.
  - intros base Hb. by apply field_aligned.
  - intros j g Hij Ej. by eapply fields_apart.
Qed.
(** So are the elements of arrays. *)
Theorem C57_array : ∀ p n t i, real t -> i < n ->
  i * size p t + size p t <= size p (GArray n t) /\
  (∀ base, base mod align p (GArray n t) = 0 -> (base + i * size p t) mod align p t = 0) /\
  ∀ j, i < j -> i * size p t + size p t <= j * size p t.
Proof.
  intros p n t i Hr Hi. split_and!.
  - by apply element_in.
  - intros base Hb. by apply element_aligned.
  - intros j Hj. nia.
Qed.
(** The value of a key-value struct is at the struct's own address: Ptr and the callbacks
    get a pointer to it. *)
Theorem C57_value_first : ∀ p V K, real V -> offset p [V; K] 0 = 0.
Proof.
  intros p V K HV. unfold offset. cbn [lookup list_lookup take]. unfold ends. cbn [fold_left]. unfold round_up. rewrite N.add_0_l.
  pose proof (align_pos p V HV). rewrite N.div_small by lia. done.
Qed.
Example C57_layout_nonvacuous :
  real root_t /\ real (kv_t (GAny 3 1) (GAny 16 8)) /\
  (* a struct of a value of 3 bytes and a string: the string starts at 8 *)
  map (offset (Platform true false) [GAny 3 1; GAny 16 8]) [0; 1]%nat = [0; 8] /\ size (Platform true false) (kv_t (GAny 3 1) (GAny 16 8)) = 24 /\
  (* a key without size gets a byte *)
  size (Platform true false) (kv_t (GUint 8) (GAny 0 1)) = 16.
Proof.
  split; [|split; [|split; [|split]]]; try (vm_compute; reflexivity).
  - cbn [real root_t root_fields link_t link_fields seed_t pathLink_t foldr]. repeat split; auto.
  - cbn [real kv_t foldr]. repeat split; [by exists 0|by exists 3].
Qed.

(** ** Loads and stores *)

(** The address of a slot: the arithmetic does not wrap around, and what is read there is
    the link in the slot. *)
Theorem C57_load : ∀ (V CK : Type) p kvsize (B : bytemem) (T : gmap loc (tblock V CK)) a ls i x,
  placed p kvsize T -> view p B T !! a = Some (BLinks ls) -> ls !! i = Some x ->
  slot p (Npos a) i = Npos a + N.of_nat i * linkSize p /\ slot p (Npos a) i + linkSize p <= top p /\
  get_link p B (slot p (Npos a) i) = x.
Proof.
  intros V CK p kvsize B T a ls i x HT Ha Hx. destruct (view_links _ _ _ _ _ Ha) as [Hl Hg].
  pose proof (inside_roomy _ _ _ _ (placed_inside _ _ _ _ _ HT Hl)) as Hr. pose proof (lookup_lt_Some _ _ _ Hx) as Hi.
  rewrite (slot_at p a _ i Hr Hi). split_and!; [done| |].
  - unfold roomy in Hr. pose proof (linkSize_pos p). nia.
  - rewrite <- (slot_at p a _ i Hr Hi). by apply Hg.
Qed.
(** A link that is stored there: the slot has the link, and all else in memory is as it
    was, byte for byte and block for block. *)
Theorem C57_store : ∀ (V CK : Type) p kvsize (B : bytemem) (T : gmap loc (tblock V CK)) a ls i x,
  (∀ y, B y < 256) -> placed p kvsize T -> view p B T !! a = Some (BLinks ls) -> (i < length ls)%nat -> fits_link p x ->
  view p (put_link p B (slot p (Npos a) i) x) T = <[a := BLinks (<[i := x]> ls)]> (view p B T) /\
  (∀ y, ¬ (Npos a + N.of_nat i * linkSize p <= y < Npos a + N.of_nat i * linkSize p + linkSize p) -> put_link p B (slot p (Npos a) i) x y = B y).
Proof.
  intros V CK p kvsize B T a ls i x HB HT Ha Hi Hx. split; [by eapply store_slot|]. intros y Hy.
  destruct (view_links _ _ _ _ _ Ha) as [Hl _]. pose proof (inside_roomy _ _ _ _ (placed_inside _ _ _ _ _ HT Hl)) as Hr.
  rewrite (slot_at p a _ i Hr Hi). apply put_link_out. lia.
Qed.
(** Also when only one field of the link is stored. *)
Theorem C57_store_field : ∀ (V CK : Type) p kvsize (B : bytemem) (T : gmap loc (tblock V CK)) a ls i x,
  (∀ y, B y < 256) -> placed p kvsize T -> view p B T !! a = Some (BLinks ls) -> ls !! i = Some x ->
  (∀ q, addr_of q < top p -> view p (put_ptr p B (slot p (Npos a) i) q) T = <[a := BLinks (<[i := Link q (lk_pmap x) (lk_tmap x)]> ls)]> (view p B T)) /\
  (∀ n, n < 2 ^ 32 -> view p (put_pmap p B (slot p (Npos a) i) n) T = <[a := BLinks (<[i := Link (lk_ptr x) n (lk_tmap x)]> ls)]> (view p B T)) /\
  (∀ n, n < 2 ^ 32 -> view p (put_tmap p B (slot p (Npos a) i) n) T = <[a := BLinks (<[i := Link (lk_ptr x) (lk_pmap x) n]> ls)]> (view p B T)).
Proof.
  intros V CK p kvsize B T a ls i x HB HT Ha Hx. destruct (view_links _ _ _ _ _ Ha) as [Hl Hg]. pose proof (lookup_lt_Some _ _ _ Hx) as Hi.
  pose proof (Hg i x Hx) as E. pose proof (get_link_fits p B (slot p (Npos a) i) HB) as Hf. rewrite E in Hf. destruct Hf as (F1 & F2 & F3). split_and!.
  - intros q Hq. transitivity (view p (put_link p B (slot p (Npos a) i) (lk_with_ptr q x)) T); [|by apply (store_slot p kvsize)].
    apply (view_agree p kvsize); [done|]. intros y. rewrite <- E. symmetry. by apply put_ptr_link.
  - intros n Hn. transitivity (view p (put_link p B (slot p (Npos a) i) (lk_with_pmap n x)) T); [|by apply (store_slot p kvsize)].
    apply (view_agree p kvsize); [done|]. intros y. rewrite <- E. symmetry. by apply put_pmap_link.
  - intros n Hn. transitivity (view p (put_link p B (slot p (Npos a) i) (lk_with_tmap n x)) T); [|by apply (store_slot p kvsize)].
    apply (view_agree p kvsize); [done|]. intros y. rewrite <- E. symmetry. by apply put_tmap_link.
Qed.
(** The link of a root is at the root's own address. *)
Theorem C57_root_link : ∀ (V CK : Type) p kvsize (B : bytemem) (T : gmap loc (tblock V CK)) r rt x,
  placed p kvsize T -> view p B T !! r = Some (BRoot rt) ->
  get_link p B (Npos r) = rt_link rt /\
  (fits p (BRoot (V:=V) (CK:=CK) (Root x (rt_seed rt) (rt_len rt) (rt_dep rt) (rt_path rt))) ->
   view p (put_link p B (Npos r) x) T = <[r := BRoot (Root x (rt_seed rt) (rt_len rt) (rt_dep rt) (rt_path rt))]> (view p B T)).
Proof.
  intros V CK p kvsize B T r rt x HT Hr. split; [by eapply view_root|]. intros Hf. by eapply store_root_link.
Qed.
(** A write of a whole array that differs in one slot, as in [bmoves] (LayoutSpec.v), is a
    write of that slot. *)
Theorem C57_write_is_store : ∀ (V CK : Type) p kvsize (B : bytemem) (T : gmap loc (tblock V CK)) a ls i x,
  (∀ y, B y < 256) -> placed p kvsize T -> view p B T !! a = Some (BLinks ls) -> (i < length ls)%nat ->
  ∀ y, write_block p B a (BLinks (V:=V) (CK:=CK) (<[i := x]> ls)) y = put_link p B (slot p (Npos a) i) x y.
Proof. intros V CK p kvsize B T a ls i x HB HT Ha Hi. by eapply store_bytes. Qed.

(** ** Programs *)

(** A program that runs with bytes has the history that it has with slots (Client.v:
    [mrun]), except for the names of maps and pointers. *)
Theorem C57_history_map : ∀ (K V CK U : Type) p kvsize (zero : V) fuel (papi : pmapapi K V CK U) api (u0 : U) tr R B T u,
  pmap_type zero fuel papi api -> bwild p kvsize papi u0 tr R B T u ->
  ∃ tr0 w0, mrun api (λ _ _, True) u0 tr0 w0 /\ nameless tr = nameless tr0 /\ u = w_usr w0.
Proof.
  intros K V CK U p kvsize zero fuel papi api u0 tr R B T u Ht Hw. destruct (bwild_wild _ _ _ _ _ _ _ _ _ _ _ _ Ht Hw) as [_ H].
  exact (C54_history_map K V CK U zero fuel papi api u0 tr R _ u Ht H).
Qed.
Theorem C57_history_set : ∀ (K CK U : Type) p kvsize fuel (papi : psetapi K unit CK U) api (u0 : U) tr R B T u,
  pset_type fuel papi api -> bswild p kvsize papi u0 tr R B T u ->
  ∃ tr0 w0, srun api (λ _ _, True) u0 tr0 w0 /\ snameless tr = snameless tr0 /\ u = w_usr w0.
Proof.
  intros K CK U p kvsize fuel papi api u0 tr R B T u Ht Hw. destruct (bswild_swild _ _ _ _ _ _ _ _ _ _ _ Ht Hw) as [_ H].
  exact (C54_history_set K CK U fuel papi api u0 tr R _ u Ht H).
Qed.

(** At any moment, also in the middle of a call, the blocks are apart, and all numbers and
    pointers fit the fields in which they are. *)
Theorem C57_fits_map : ∀ (K V CK U : Type) p kvsize (zero : V) fuel (papi : pmapapi K V CK U) api (u0 : U) tr R B T u op q B' T' u',
  pmap_type zero fuel papi api -> bwild p kvsize papi u0 tr R B T u ->
  rtc (bmoves p kvsize res_as R) (pmcall papi (Op op), B, T, u) (q, B', T', u') ->
  placed p kvsize T' /\ ∀ l b, view p B' T' !! l = Some b -> fits p b.
Proof.
  intros K V CK U p kvsize zero fuel papi api u0 tr R B T u op q B' T' u' Ht Hw Hm. destruct (bwild_wild _ _ _ _ _ _ _ _ _ _ _ _ Ht Hw) as [Hs _].
  destruct (bsteps p kvsize _ _ _ _ Hm _ _ _ _ _ _ _ _ eq_refl eq_refl Hs) as (_ & H & _); [apply ready_none, t_mcall; by eapply pmap_type_tidy|].
  split; [apply H|]. intros l b. by eapply sane_view.
Qed.
Theorem C57_fits_set : ∀ (K CK U : Type) p kvsize fuel (papi : psetapi K unit CK U) api (u0 : U) tr R B T u op q B' T' u',
  pset_type fuel papi api -> bswild p kvsize papi u0 tr R B T u ->
  rtc (bmoves p kvsize sres_as R) (pscall papi op, B, T, u) (q, B', T', u') ->
  placed p kvsize T' /\ ∀ l b, view p B' T' !! l = Some b -> fits p b.
Proof.
  intros K CK U p kvsize fuel papi api u0 tr R B T u op q B' T' u' Ht Hw Hm. destruct (bswild_swild _ _ _ _ _ _ _ _ _ _ _ Ht Hw) as [Hs _].
  destruct (bsteps p kvsize _ _ _ _ Hm _ _ _ _ _ _ _ _ eq_refl eq_refl Hs) as (_ & H & _); [apply ready_none, t_scall; by eapply pset_type_tidy|].
  split; [apply H|]. intros l b. by eapply sane_view.
Qed.

(** A call with the keys that C01 allows, while it runs: it has returned, or it asks the
    allocator for memory, or its next access finds its block. So only the allocator can
    stop it. When it returns, it returns what the call beside it returns. *)
Section maps.
Context (V U K CK : Type) (EqK : EqDecision K) (CoK : Countable K) (zero : V) (u0 : U) (fuel : nat) (p : platform) (kvsize : N).
Context (papi : pmapapi K V CK U) (api : mapapi K V CK U) (dig : N -> K -> nat -> N).
Context (ok : list (mop K V U * mres V) -> mop K V U -> Prop).
Hypothesis Hfuel : (256 <= fuel)%nat.
Hypothesis Htype : map_both zero fuel papi api dig ok.
Theorem C57_call_map : ∀ tr R B T u tr0 ρ w0 op,
  bwild p kvsize papi u0 tr R B T u -> beside api papi ok u0 tr R (view p B T) u tr0 ρ w0 ->
  ok tr0 (op_by ρ op) -> (∀ a, takes op = Some a -> a ∈ R) ->
  ∃ res0 w0', mcall api (op_by ρ op) w0 = Ret res0 w0' /\
    ∀ q B' T' u', rtc (bmoves p kvsize res_as R) (pmcall papi (Op op), B, T, u) (q, B', T', u') ->
      ((∃ res, q = PRet res) \/ (∃ b k, q = PAlloc b k) \/
       ∃ q2 B2 T2 u2, bmoves p kvsize res_as R (q, B', T', u') (q2, B2, T2, u2) /\ dom T2 = dom T') /\
      ∀ res, q = PRet res -> ∃ ρ', keeps_names R (R ∪ gives res) ρ ρ' /\ res0 = res_by ρ' res /\ u' = w_usr w0' /\
        beside api papi ok u0 ((op, res) :: tr) (R ∪ gives res) (view p B' T') u' ((op_by ρ op, res0) :: tr0) ρ' w0'.
Proof.
  intros tr R B T u tr0 ρ w0 op Hw Hb Ho Hta. pose proof (map_both_prog _ _ _ _ _ _ Htype) as Hp.
  destruct (bwild_wild _ _ _ _ _ _ _ _ _ _ _ _ Hp Hw) as [Hs _].
  destruct (C54_call_map V U K CK EqK CoK zero u0 fuel papi api dig ok Hfuel Htype tr R _ u tr0 ρ w0 op Hb Ho Hta) as (H1 & res0 & w0' & E & H2).
  exists res0, w0'. split; [exact E|]. intros q B' T' u' Hm.
  destruct (bsteps p kvsize _ _ _ _ Hm _ _ _ _ _ _ _ _ eq_refl eq_refl Hs) as (Hm' & Hs' & Hr); [apply ready_none, t_mcall; by eapply pmap_type_tidy|].
  split.
  - destruct (H1 _ Hm') as (res & m2 & u2 & Hend). apply goes_step. by eapply bgoes_on.
  - intros res ->. destruct (H2 _ _ _ Hm') as (ρ' & H3). by exists ρ'.
Qed.
End maps.
Section sets.
Context (U K CK : Type) (EqK : EqDecision K) (CoK : Countable K) (u0 : U) (fuel : nat) (p : platform) (kvsize : N).
Context (papi : psetapi K unit CK U) (api : setapi K unit CK U) (dig : N -> K -> nat -> N).
Context (ok : list (sop K U * sres) -> sop K U -> Prop).
Hypothesis Hfuel : (256 <= fuel)%nat.
Hypothesis Htype : set_both fuel papi api dig ok.
Theorem C57_call_set : ∀ tr R B T u tr0 ρ w0 op,
  bswild p kvsize papi u0 tr R B T u -> sbeside api papi ok u0 tr R (view p B T) u tr0 ρ w0 ->
  ok tr0 (sop_by ρ op) -> (∀ a, stakes op = Some a -> a ∈ R) ->
  ∃ res0 w0', scall api (sop_by ρ op) w0 = Ret res0 w0' /\
    ∀ q B' T' u', rtc (bmoves p kvsize sres_as R) (pscall papi op, B, T, u) (q, B', T', u') ->
      ((∃ res, q = PRet res) \/ (∃ b k, q = PAlloc b k) \/
       ∃ q2 B2 T2 u2, bmoves p kvsize sres_as R (q, B', T', u') (q2, B2, T2, u2) /\ dom T2 = dom T') /\
      ∀ res, q = PRet res -> ∃ ρ', keeps_names R (R ∪ sgives res) ρ ρ' /\ res0 = sres_by ρ' res /\ u' = w_usr w0' /\
        sbeside api papi ok u0 ((op, res) :: tr) (R ∪ sgives res) (view p B' T') u' ((sop_by ρ op, res0) :: tr0) ρ' w0'.
Proof.
  intros tr R B T u tr0 ρ w0 op Hw Hb Ho Hta. pose proof (set_both_prog _ _ _ _ _ Htype) as Hp.
  destruct (bswild_swild _ _ _ _ _ _ _ _ _ _ _ Hp Hw) as [Hs _].
  destruct (C54_call_set U K CK EqK CoK u0 fuel papi api dig ok Hfuel Htype tr R _ u tr0 ρ w0 op Hb Ho Hta) as (H1 & res0 & w0' & E & H2).
  exists res0, w0'. split; [exact E|]. intros q B' T' u' Hm.
  destruct (bsteps p kvsize _ _ _ _ Hm _ _ _ _ _ _ _ _ eq_refl eq_refl Hs) as (Hm' & Hs' & Hr); [apply ready_none, t_scall; by eapply pset_type_tidy|].
  split.
  - destruct (H1 _ Hm') as (res & m2 & u2 & Hend). apply goes_step. by eapply bgoes_on.
  - intros res ->. destruct (H2 _ _ _ Hm') as (ρ' & H3). by exists ρ'.
Qed.
End sets.

(** ** Programs that are like that *)

(** Running a call with given addresses for what it allocates. The run is computed with
    slots; it is also one with bytes. *)
Section drive.
Context {V CK U A : Type} (p : platform) (kvsize : N) (as_ : names -> A -> A -> Prop) (R : gset loc).
Definition spans (l : loc) (t : tblock V CK) : list (N * N) :=
  match t with
  | TLinks n => [(Npos l, Npos l + size p (array_t (N.of_nat n)))]
  | TKv _ _ => [(Npos l, Npos l + kvsize)]
  | TRoot _ _ _ _ => [(Npos l, Npos l + items_at p); (Npos l + path_at p, Npos l + size p root_t)]
  end.
Lemma spans_owns l t x : owns p kvsize l t x <-> ∃ s, s ∈ spans l t /\ s.1 <= x < s.2.
Proof.
  destruct t; cbn [owns spans]; split.
  - intros H. eexists. split; [apply elem_of_list_singleton; reflexivity|done].
  - intros (s & Hs & H). apply elem_of_list_singleton in Hs as ->. done.
  - intros H. eexists. split; [apply elem_of_list_singleton; reflexivity|done].
  - intros (s & Hs & H). apply elem_of_list_singleton in Hs as ->. done.
  - intros [H|H].
    + exists (Npos l, Npos l + items_at p). split; [set_solver +|exact H].
    + exists (Npos l + path_at p, Npos l + size p root_t). split; [set_solver +|exact H].
  - intros (s & Hs & H). apply elem_of_cons in Hs as [->|Hs]; [by left|]. apply elem_of_list_singleton in Hs as ->. by right.
Qed.
Definition placedb (L : list (loc * tblock V CK)) : bool :=
  forallb (λ x, (Npos x.1 <? top p) && forallb (λ s, s.2 <=? top p) (spans x.1 x.2)) L &&
  forallb (λ x, forallb (λ y, Pos.eqb x.1 y.1 || forallb (λ s, forallb (λ s', (s.2 <=? s'.1) || (s'.2 <=? s.1)) (spans y.1 y.2)) (spans x.1 x.2)) L) L.
Lemma placedb_ok T : placedb (map_to_list T) = true -> placed p kvsize T.
Proof.
  unfold placedb. intros H. apply andb_prop in H as [H1 H2]. rewrite forallb_forall in H1, H2.
  assert (HL : ∀ l t, T !! l = Some t -> In (l, t) (map_to_list T)) by (intros l t E; by apply elem_of_list_In, elem_of_map_to_list). split.
  - intros l t E. specialize (H1 _ (HL _ _ E)). apply andb_prop in H1 as [Ha Hb]. cbn [fst snd] in Ha, Hb. apply N.ltb_lt in Ha. split; [done|].
    intros x Hx. apply spans_owns in Hx as (s & Hs & Hx). rewrite forallb_forall in Hb. apply elem_of_list_In, Hb, N.leb_le in Hs. lia.
  - intros l l' t t' x E E' Hx Hx'. specialize (H2 _ (HL _ _ E)). rewrite forallb_forall in H2. specialize (H2 _ (HL _ _ E')). cbn [fst snd] in H2.
    apply orb_prop in H2 as [H2|H2]; [by apply Pos.eqb_eq|]. exfalso.
    apply spans_owns in Hx as (s & Hs & Hx). apply spans_owns in Hx' as (s' & Hs' & Hx').
    rewrite forallb_forall in H2. apply elem_of_list_In, H2 in Hs. rewrite forallb_forall in Hs. apply elem_of_list_In, Hs in Hs'.
    apply orb_prop in Hs' as [Hd|Hd]; apply N.leb_le in Hd; lia.
Qed.
Definition likeb (t t' : tblock V CK) : bool :=
  match t, t' with
  | TLinks n, TLinks n' => Nat.eqb n n'
  | TKv _ _, TKv _ _ => true
  | TRoot _ _ _ _, TRoot _ _ _ _ => true
  | _, _ => false
  end.
Lemma likeb_ok t t' : likeb t t' = true -> like t t'.
Proof. destruct t, t'; simpl; try done. intros H. by apply Nat.eqb_eq. Qed.
Fixpoint bdrive (q : prog V CK U A) (addrs : list loc) (m : gmap loc (block V CK)) (u : U) : option (A * list loc * gmap loc (block V CK) * U) :=
  match q with
  | PRet a => Some (a, addrs, m, u)
  | PRead l k => match m !! l with Some b => bdrive (k b) addrs m u | None => None end
  | PWrite l b k => match m !! l with Some b0 => if likeb (typed b0) (typed b) then bdrive k addrs (<[l := b]> m) u else None | None => None end
  | PAlloc b k =>
      match addrs with
      | a :: addrs => match m !! a with
                      | Some _ => None
                      | None => if placedb (map_to_list (typed <$> <[a := b]> m)) then bdrive (k a) addrs (<[a := b]> m) u else None
                      end
      | [] => None
      end
  | PGet k => bdrive (k u) addrs m u
  | PPut u' k => bdrive k addrs m u'
  | _ => None
  end.
Lemma typed_view B (T : gmap loc (tblock V CK)) : typed <$> view p B T = T.
Proof. apply map_eq. intros l. rewrite lookup_fmap, view_lookup. destruct (T !! l) as [t|]; [|done]. cbn. by rewrite typed_read. Qed.
Lemma bdrive_bmoves q : ∀ addrs m u a addrs' m' u' B T, view p B T = m -> sane p kvsize B T -> ready p T q ->
  bdrive q addrs m u = Some (a, addrs', m', u') ->
  ∃ B' T', view p B' T' = m' /\ rtc (bmoves p kvsize as_ R) (q, B, T, u) (PRet a, B', T', u').
Proof.
  induction q as [a| | | |l k IH|l b k IH|b k IH|k IH|u1 k IH]; intros addrs m u a0 addrs' m' u' B T Hv Hs Hr E; cbn [bdrive] in E; try discriminate.
  - injection E as -> -> -> ->. exists B, T. split; [done|apply rtc_refl].
  - destruct (m !! l) as [b|] eqn:El; [|discriminate]. rewrite <- Hv, view_lookup in El. destruct (T !! l) as [t|] eqn:Et; [|discriminate].
    cbn in El. injection El as El. assert (Hm : bmoves p kvsize as_ R (PRead l k, B, T, u) (k b, B, T, u)) by (rewrite <- El; by constructor).
    destruct (bstep p kvsize _ _ _ _ _ _ _ _ _ _ Hm Hs Hr) as (_ & Hs' & Hr').
    destruct (IH _ _ _ _ _ _ _ _ _ _ Hv Hs' Hr' E) as (B' & T' & Hv' & Hrtc). exists B', T'. split; [done|]. by eapply rtc_l.
  - destruct (m !! l) as [b0|] eqn:El; [|discriminate]. destruct (likeb _ _) eqn:Ek; [|discriminate]. apply likeb_ok in Ek.
    rewrite <- Hv, view_lookup in El. destruct (T !! l) as [t|] eqn:Et; [|discriminate]. cbn in El. injection El as El.
    rewrite <- El, typed_read in Ek.
    assert (Hm : bmoves p kvsize as_ R (PWrite l b k, B, T, u) (k, write_block p B l b, <[l := typed b]> T, u)) by (by econstructor).
    destruct (bstep p kvsize _ _ _ _ _ _ _ _ _ _ Hm Hs Hr) as (_ & Hs' & Hr').
    destruct Hr as [(last & Hb & _) _].
    destruct (IH (addrs) (<[l := b]> m) u a0 addrs' m' u' (write_block p B l b) (<[l := typed b]> T)) as (B' & T' & Hv' & Hrtc); [|done|done|done|].
    { rewrite (view_write p kvsize); [by rewrite Hv|apply Hs'|done]. }
    exists B', T'. split; [done|]. by eapply rtc_l.
  - destruct addrs as [|l addrs]; [discriminate|]. destruct (m !! l) as [b0|] eqn:El; [discriminate|].
    destruct (placedb _) eqn:Ep; [|discriminate]. apply placedb_ok in Ep. rewrite fmap_insert in Ep. rewrite <- Hv, typed_view in Ep.
    rewrite <- Hv, view_lookup in El. destruct (T !! l) as [t|] eqn:Et; [discriminate|].
    assert (Hm : bmoves p kvsize as_ R (PAlloc b k, B, T, u) (k l, write_block p B l b, <[l := typed b]> T, u)) by (by econstructor).
    destruct (bstep p kvsize _ _ _ _ _ _ _ _ _ _ Hm Hs Hr) as (_ & Hs' & Hr'). destruct Hr as [(last & Hb & _) _].
    destruct (IH l addrs (<[l := b]> m) u a0 addrs' m' u' (write_block p B l b) (<[l := typed b]> T)) as (B' & T' & Hv' & Hrtc); [|done|done|done|].
    { rewrite (view_write p kvsize); [by rewrite Hv|done|done]. }
    exists B', T'. split; [done|]. by eapply rtc_l.
  - assert (Hm : bmoves p kvsize as_ R (PGet k, B, T, u) (k u, B, T, u)) by constructor.
    destruct (bstep p kvsize _ _ _ _ _ _ _ _ _ _ Hm Hs Hr) as (_ & Hs' & Hr').
    destruct (IH _ _ _ _ _ _ _ _ _ _ Hv Hs' Hr' E) as (B' & T' & Hv' & Hrtc). exists B', T'. split; [done|]. by eapply rtc_l.
  - assert (Hm : bmoves p kvsize as_ R (PPut u1 k, B, T, u) (k, B, T, u1)) by constructor.
    destruct (bstep p kvsize _ _ _ _ _ _ _ _ _ _ Hm Hs Hr) as (_ & Hs' & Hr').
    destruct (IH _ _ _ _ _ _ _ _ _ Hv Hs' Hr' E) as (B' & T' & Hv' & Hrtc). exists B', T'. split; [done|]. by eapply rtc_l.
Qed.
End drive.

(** Such a run and the one with slots beside it. *)
Section exec.
Context {K V CK U : Type} `{EqDecision V, EqDecision U} (zero : V) (fuel : nat) (p : platform) (kvsize : N).
Context (papi : pmapapi K V CK U) (api : mapapi K V CK U) (u0 : U) (Ht : pmap_type zero fuel papi api).
Context (ok : list (mop K V U * mres V) -> mop K V U -> Prop) (chk : list (mop K V U * mres V) -> mop K V U -> bool).
Hypothesis Hchk : ∀ tr op, chk tr op = true -> ok tr op.
Definition bboth_step (s : both_at (K:=K) (V:=V) (CK:=CK) (U:=U)) (addrs : list loc) (op : mop K V U) : option (both_at (K:=K) (V:=V) (CK:=CK) (U:=U) * list loc) :=
  let 'BothAt tr R m u tr0 l w := s in
  if chk tr0 (op_by (named l) op) && match takes op with Some a => bool_decide (a ∈ R) | None => true end then
    match bdrive p kvsize (pmcall papi (Op op)) addrs m u, mcall api (op_by (named l) op) w with
    | Some (res, addrs', m', u'), Ret res0 w' =>
        let l' := rename res res0 l in
        if res_eqb (res_by (named l') res) res0 && names_okb R (gives_list res ++ R) l l' && bool_decide (u' = w_usr w')
        then Some (BothAt ((op, res) :: tr) (gives_list res ++ R) m' u' ((op_by (named l) op, res0) :: tr0) l' w', addrs') else None
    | _, _ => None
    end
  else None.
Fixpoint bboth_exec (s : both_at (K:=K) (V:=V) (CK:=CK) (U:=U)) (addrs : list loc) (ops : list (mop K V U)) : option (both_at (K:=K) (V:=V) (CK:=CK) (U:=U)) :=
  match ops with
  | [] => Some s
  | op :: ops => match bboth_step s addrs op with Some (s, addrs) => bboth_exec s addrs ops | None => None end
  end.
Definition bgood (s : both_at (K:=K) (V:=V) (CK:=CK) (U:=U)) : Prop := good papi api u0 ok s /\
  ∃ B T, view p B T = ba_m s /\ bwild p kvsize papi u0 (ba_tr s) (list_to_set (ba_R s)) B T (ba_u s).
Lemma bboth_step_good s addrs op s' addrs' : bgood s -> bboth_step s addrs op = Some (s', addrs') -> bgood s'.
Proof using Hchk Ht.
  destruct s as [tr R m u tr0 l w]. unfold bgood, good. cbn [bboth_step ba_tr ba_R ba_m ba_u ba_tr0 ba_names ba_w]. intros [Hb (B & T & Hv & Hw)] E.
  destruct (chk tr0 (op_by (named l) op)) eqn:Ec; [|discriminate]. rewrite andb_true_l in E. destruct (match takes op with Some a => _ | None => _ end) eqn:Et; [|discriminate].
  destruct (bdrive _ _ _ _ _ _) as [[[[res addrs1] m'] u']|] eqn:Ed; [|discriminate].
  destruct (mcall api _ w) as [res0 w'| | |] eqn:Em; try discriminate.
  destruct (res_eqb _ _) eqn:Er; [|discriminate]. destruct (names_okb _ _ _ _) eqn:En; [|discriminate].
  rewrite andb_true_l in E. destruct (bool_decide (u' = w_usr w')) eqn:Eu; [|discriminate]. injection E as <- <-.
  cbn [ba_tr ba_R ba_m ba_u ba_tr0 ba_names ba_w]. set (l' := rename res res0 l) in *. clearbody l'.
  apply res_eqb_ok in Er. apply bool_decide_eq_true in Eu. apply andb_prop in En as [En1 En2]. rewrite forallb_forall in En1, En2.
  rewrite <-Er. assert (HR : list_to_set (gives_list res ++ R) = (list_to_set R ∪ gives res : gset loc)).
  { apply leibniz_equiv. destruct res as [| | | |[]| |]; simpl; set_solver +. }
  rewrite HR. assert (Hta : ∀ a, takes op = Some a -> a ∈ (list_to_set R : gset loc)).
  { intros a Ha. rewrite Ha in Et. apply bool_decide_eq_true in Et. by apply elem_of_list_to_set. }
  destruct (bwild_wild _ _ _ _ _ _ _ _ _ _ _ _ Ht Hw) as [Hs _].
  assert (Hr : ready p T (pmcall papi (Op op))) by (apply ready_none, t_mcall; by eapply pmap_type_tidy).
  destruct (bdrive_bmoves p kvsize res_as (list_to_set R) _ _ _ _ _ _ _ _ _ _ Hv Hs Hr Ed) as (B' & T' & Hv' & Hrtc).
  destruct (bsteps p kvsize _ _ _ _ Hrtc _ _ _ _ _ _ _ _ eq_refl eq_refl Hs Hr) as (Hmv & _). rewrite Hv, Hv' in Hmv.
  split; [|exists B', T'; split; [done|by econstructor]].
  eapply beside_call; [exact Hb|by apply Hchk|exact Hta|exact Hmv|by rewrite Er| |exact Eu].
  split.
  - intros a Ha. apply Pos.eqb_eq, En1, elem_of_list_In. set_solver +Ha.
  - intros a b Ha Hb' Hab. rewrite <-HR, !elem_of_list_to_set in Ha, Hb'. rewrite elem_of_list_In in Ha, Hb'.
    specialize (En2 _ Ha). rewrite forallb_forall in En2. specialize (En2 _ Hb').
    rewrite Hab, Pos.eqb_refl in En2. by apply Pos.eqb_eq.
Qed.
Lemma bboth_exec_good ops : ∀ s addrs s', bgood s -> bboth_exec s addrs ops = Some s' -> bgood s'.
Proof using Hchk Ht.
  induction ops as [|op ops IH]; cbn [bboth_exec]; intros s addrs s' Hg E; [by injection E as <-|].
  destruct (bboth_step s addrs op) as [[s1 addrs1]|] eqn:E1; [|discriminate]. eapply IH; [|exact E]. by eapply bboth_step_good.
Qed.
End exec.

(** On each platform: a map at address 1024, its first array inside the root, as in Go, and
    four keys, two of which have the same first digit, so that a second array is made. The
    bytes at 1024 are the map's own link, with the address of the first array. *)
Definition four_keys : list (mop bytes N N) :=
  [MNew 0; MSet 1024 [1] 10; MSet 1024 [2] 20; MSet 1024 [17] 30; MSet 1024 [3] 40; MSet 1024 [1] 50; MDel 1024 [2]; MPtr 1024 [17]; MGet 1024 [1]].
Definition spots (p : platform) : list loc :=
  [Pos.of_nat (N.to_nat (1024 + items_at p)); 1024; 2048; 2080; 2112; 4096; 8192]%positive.
Example C57_nonvacuous : ∀ p,
  let api := StringMap_api (U:=N) sum8 0%N 256 in
  let papi := PStringMap_api (U:=N) sum8 0%N 256 in
  let ok := λ tr op, mallowed (λ _, true = true) (λ _, true = true) tr op /\ ins_guard (digit sum8) any_way any_way tr op in
  map_both 0%N 256 papi api (digit sum8) ok /\
  ∃ tr R B T u tr0 ρ w0, bwild p 24 papi 0 tr R B T u /\ beside api papi ok 0 tr R (view p B T) u tr0 ρ w0 /\
    rev (map snd tr) = [RHandle 1024; RUnit; RUnit; RUnit; RUnit; RUnit; RUnit; RPtr (Some 4096%positive); RGet 50 true] /\
    rev (map snd tr0) = [RHandle 2; RUnit; RUnit; RUnit; RUnit; RUnit; RUnit; RPtr (Some 32%positive); RGet 50 true] /\
    get_link p B 1024 = Link (ptr_at (1024 + items_at p)) 10 8 /\ placed p 24 T /\ base.size T = 7%nat.
Proof.
  intros p api papi ok. pose (chk := gchk (V:=N) (U:=N) (digit sum8) (λ _, true) anyb anyb).
  assert (Hb : map_both 0%N 256 papi api (digit sum8) ok) by apply both_StringMap. split; [exact Hb|].
  assert (Hchk : ∀ tr op, chk tr op = true -> ok tr op) by (intros tr op; apply gchk_ok; apply anyb_ok).
  assert (He : match bboth_exec p 24 papi api chk (BothAt [] [] ∅ 0%N [] [] (empty_world 0%N)) (spots p) four_keys with
    | Some s =>
        rev (map snd (ba_tr s)) = [RHandle 1024; RUnit; RUnit; RUnit; RUnit; RUnit; RUnit; RPtr (Some 4096%positive); RGet 50 true] /\
        rev (map snd (ba_tr0 s)) = [RHandle 2; RUnit; RUnit; RUnit; RUnit; RUnit; RUnit; RPtr (Some 32%positive); RGet 50 true] /\
        match ba_m s !! 1024%positive with Some (BRoot r) => rt_link r = Link (ptr_at (1024 + items_at p)) 10 8 | _ => False end /\ base.size (ba_m s) = 7%nat
    | None => False end) by (destruct p as [[] []]; vm_compute; repeat split).
  destruct (bboth_exec _ _ _ _ _ _ _ _) as [s|] eqn:E; [|destruct He]. destruct He as (H1 & H2 & H3 & H4).
  apply (bboth_exec_good 0%N 256 p 24 papi api 0%N (map_both_prog _ _ _ _ _ _ Hb) ok chk Hchk) in E.
  2:{ split; [constructor|]. exists (λ _, 0), ∅. split; [unfold view; by rewrite map_imap_empty|]. by constructor. }
  destruct E as [Hg (B & T & Hv & Hw)]. destruct (bwild_wild _ _ _ _ _ _ _ _ _ _ _ _ (map_both_prog _ _ _ _ _ _ Hb) Hw) as [Hs _].
  eexists _, _, B, T, _, _, _, _. split; [exact Hw|]. split; [rewrite Hv; exact Hg|]. split; [exact H1|]. split; [exact H2|].
  split; [|split; [apply Hs|]].
  - destruct (ba_m s !! 1024%positive) as [[| |r]|] eqn:Er; try (exfalso; exact H3). rewrite <- H3. rewrite <- Hv in Er. by apply (view_root _ _ _ _ _ Er).
  - rewrite <- (typed_view p B T), map_size_fmap, Hv. exact H4.
Qed.

Print Assumptions C57_sizes_64.
Print Assumptions C57_sizes_32.
Print Assumptions C57_struct.
Print Assumptions C57_array.
Print Assumptions C57_value_first.
Print Assumptions C57_load.
Print Assumptions C57_store.
Print Assumptions C57_store_field.
Print Assumptions C57_root_link.
Print Assumptions C57_write_is_store.
Print Assumptions C57_history_map.
Print Assumptions C57_history_set.
Print Assumptions C57_fits_map.
Print Assumptions C57_fits_set.
Print Assumptions C57_call_map.
Print Assumptions C57_call_set.
