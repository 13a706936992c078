(** Blocks in a memory of bytes. *)
From stdpp Require Import base numbers list gmap.
From Verif Require Import Mem Amt LayoutSpec Layout.
Local Open Scope N_scope.
Local Notation insert := stdpp.base.insert.

Lemma array_size p n : size p (array_t (N.of_nat n)) = N.of_nat n * linkSize p.
Proof. done. Qed.
Lemma root_layout p : linkSize p <= items_at p /\ items_at p <= path_at p /\ path_at p <= size p root_t.
Proof. destruct p as [[] []]; vm_compute; done. Qed.
Local Arguments linkSize : simpl never.
Local Arguments size : simpl never.
Local Arguments top : simpl never.
Local Arguments items_at : simpl never.
Local Arguments path_at : simpl never.
Local Arguments N.mul : simpl never.
Local Arguments N.add : simpl never.

Section slots.
Variable p : platform.
Lemma linkSize_pos : 0 < linkSize p.
Proof. destruct (link_layout p) as (_ & _ & _ & ->). lia. Qed.

(** The addresses of the slots of an array that fits into the address space. *)
Definition roomy (l : loc) (n : nat) : Prop := Npos l + N.of_nat n * linkSize p <= top p.
Lemma slot_at l n i : roomy l n -> (i < n)%nat -> slot p (Npos l) i = Npos l + N.of_nat i * linkSize p.
Proof.
  unfold roomy. intros Hr Hi. pose proof linkSize_pos. unfold slot, uintptr.
  rewrite (N.mod_small (N.of_nat i)) by nia. rewrite (N.mod_small (N.of_nat i * linkSize p)) by nia. apply N.mod_small. nia.
Qed.

Section put_slots.
Variables (l : loc) (n : nat).
Hypothesis Hroom : roomy l n.
Lemma put_slots_out B i ls x : (i + length ls <= n)%nat ->
  (x < Npos l + N.of_nat i * linkSize p \/ Npos l + N.of_nat (i + length ls) * linkSize p <= x) -> put_slots p B l i ls x = B x.
Proof using Hroom.
  revert B i. induction ls as [|y ls IH]; intros B i Hn Hx; cbn [put_slots length] in *; [done|]. pose proof linkSize_pos.
  rewrite IH by nia. apply put_link_out. rewrite (slot_at l n) by (done || lia). nia.
Qed.
Lemma put_slots_get B i ls j x : (i + length ls <= n)%nat -> Forall (fits_link p) ls -> ls !! j = Some x ->
  get_link p (put_slots p B l i ls) (slot p (Npos l) (i + j)) = x.
Proof using Hroom.
  revert B i j. induction ls as [|y ls IH]; intros B i j Hn Hf E; [done|]. cbn [put_slots length] in *. inversion Hf; subst. pose proof linkSize_pos.
  destruct j as [|j]; simpl in E.
  - simplify_eq. rewrite Nat.add_0_r. rewrite <- (get_put_link p B (slot p (Npos l) i) x) by done. apply get_link_agree. intros z Hz.
    rewrite get_put_link in * by done. apply put_slots_out; [lia|]. rewrite (slot_at l n) in Hz by (done || lia). nia.
  - replace (i + S j)%nat with (S i + j)%nat by lia. by apply IH; [lia|..].
Qed.
Lemma put_slots_good B i ls : good_bytes B -> good_bytes (put_slots p B l i ls).
Proof using. revert B i. induction ls as [|y ls IH]; intros B i HB; cbn [put_slots]; [done|]. by apply IH, put_link_good. Qed.
Lemma put_slots_ext B B' i ls : (∀ x, B x = B' x) -> ∀ x, put_slots p B l i ls x = put_slots p B' l i ls x.
Proof using. revert B B' i. induction ls as [|y ls IH]; intros B B' i H; cbn [put_slots]; [done|]. apply IH. by apply put_link_ext. Qed.
Definition holds (B : bytemem) (i : nat) (ls : list link) : Prop := ∀ j x, ls !! j = Some x -> get_link p B (slot p (Npos l) (i + j)) = x.
Lemma holds_ext B B' i ls : (∀ x, B x = B' x) -> holds B i ls -> holds B' i ls.
Proof using. intros E H j x Hj. rewrite <- (H j x Hj). apply get_link_agree. intros. by rewrite E. Qed.
Lemma put_slots_same B i ls : good_bytes B -> holds B i ls -> ∀ x, put_slots p B l i ls x = B x.
Proof using.
  revert B i. induction ls as [|y ls IH]; intros B i HB H x; cbn [put_slots]; [done|].
  assert (E : ∀ z, put_link p B (slot p (Npos l) i) y z = B z).
  { intros z. rewrite <- (H 0%nat y eq_refl), Nat.add_0_r. by apply put_get_link. }
  rewrite (put_slots_ext _ B _ _ E). apply IH; [done|]. intros j z Hj. replace (S i + j)%nat with (i + S j)%nat by lia. by apply H.
Qed.
Lemma put_slots_one B i ls j x : good_bytes B -> holds B i ls -> (i + length ls <= n)%nat -> (j < length ls)%nat ->
  ∀ y, put_slots p B l i (<[j := x]> ls) y = put_link p B (slot p (Npos l) (i + j)) x y.
Proof using Hroom.
  revert B i j. induction ls as [|z ls IH]; intros B i j HB H Hn Hj y; [simpl in Hj; lia|]. cbn [length] in *. pose proof linkSize_pos.
  destruct j as [|j].
  - rewrite Nat.add_0_r. change (<[0%nat := x]> (z :: ls)) with (x :: ls). cbn [put_slots].
    apply put_slots_same; [by apply put_link_good|]. intros j w Hw. pose proof (lookup_lt_Some _ _ _ Hw). rewrite get_other_link.
    + replace (S i + j)%nat with (i + S j)%nat by lia. by apply H.
    + rewrite !(slot_at l n) by (done || lia). nia.
  - change (<[S j := x]> (z :: ls)) with (z :: <[j := x]> ls). cbn [put_slots].
    assert (E : ∀ y, put_link p B (slot p (Npos l) i) z y = B y).
    { intros w. rewrite <- (H 0%nat z eq_refl), Nat.add_0_r. by apply put_get_link. }
    rewrite (put_slots_ext _ B _ _ E). rewrite IH; [by replace (S i + j)%nat with (i + S j)%nat by lia|done| |lia|lia].
    intros k w Hw. replace (S i + k)%nat with (i + S k)%nat by lia. by apply H.
Qed.
End put_slots.

(** Writing one field is writing the link with that field changed. *)
Lemma put_ptr_link B a q y : good_bytes B -> addr_of q < top p -> put_link p B a (lk_with_ptr q (get_link p B a)) y = put_ptr p B a q y.
Proof.
  intros HB Hq. pose proof (get_put_ptr p B a q Hq) as E. injection E as _ E1 E2. unfold put_link, lk_with_ptr, get_link. cbn [lk_ptr lk_pmap lk_tmap].
  assert (H1 : good_bytes (put_ptr p B a q)) by by apply put_num_good.
  assert (H2 : ∀ z, put_pmap p (put_ptr p B a q) a (get_num p B (a + pmap_off p) 4) z = put_ptr p B a q z).
  { intros z. rewrite <- E1. by apply put_get_num. }
  unfold put_tmap at 1. erewrite put_num_ext by exact H2. rewrite <- E2. by apply put_get_num.
Qed.
Lemma put_same_ptr B a z : good_bytes B -> put_ptr p B a (lk_ptr (get_link p B a)) z = B z.
Proof. intros HB. unfold put_ptr, get_link. cbn [lk_ptr]. rewrite addr_at. by apply put_get_num. Qed.
Lemma put_pmap_link B a v y : good_bytes B -> v < 2 ^ 32 -> put_link p B a (lk_with_pmap v (get_link p B a)) y = put_pmap p B a v y.
Proof.
  intros HB Hv. pose proof (get_put_pmap p B a v Hv) as E. injection E as _ _ E2. unfold put_link, lk_with_pmap, get_link. cbn [lk_ptr lk_pmap lk_tmap].
  assert (H1 : good_bytes (put_pmap p B a v)) by by apply put_num_good.
  assert (H2 : ∀ z, put_pmap p (put_ptr p B a (ptr_at (get_num p B (a + ptr_off p) (N.to_nat (word p))))) a v z = put_pmap p B a v z).
  { intros z. apply put_num_ext. intros w. by apply put_same_ptr. }
  unfold put_tmap at 1. erewrite put_num_ext by exact H2. rewrite <- E2. by apply put_get_num.
Qed.
Lemma put_tmap_link B a v y : good_bytes B -> put_link p B a (lk_with_tmap v (get_link p B a)) y = put_tmap p B a v y.
Proof.
  intros HB. unfold put_link, lk_with_tmap. cbn [lk_ptr lk_pmap lk_tmap]. apply put_num_ext. intros z. unfold put_pmap.
  erewrite put_num_ext by (intros w; by apply put_same_ptr). by apply put_get_num.
Qed.
End slots.

(** ** Blocks *)
Section blocks.
Context {V CK : Type}.
Variables (p : platform) (kvsize : N).
Implicit Types (t : tblock V CK) (b : block V CK) (T : gmap loc (tblock V CK)).
Local Notation owns := (owns (V:=V) (CK:=CK) p kvsize).
Local Notation placed := (placed (V:=V) (CK:=CK) p kvsize).

Lemma like_refl t : like t t.
Proof. by destruct t. Qed.
Lemma like_owns l t t' x : like t t' -> owns l t x -> owns l t' x.
Proof. destruct t, t'; simpl; try done. by intros ->. Qed.
Lemma like_sym t t' : like t t' -> like t' t.
Proof. by destruct t, t'. Qed.

Lemma owns_links l n x : owns l (TLinks n) x <-> Npos l <= x < Npos l + N.of_nat n * linkSize p.
Proof. reflexivity. Qed.
(** The block lies in the address space. *)
Definition inside l t : Prop := Npos l < top p /\ ∀ x, owns l t x -> x < top p.
Lemma inside_roomy l n : inside l (TLinks n) -> roomy p l n.
Proof.
  intros [Hl H]. unfold roomy. pose proof (linkSize_pos p). destruct n as [|n]; [lia|].
  assert (Npos l + N.of_nat (S n) * linkSize p - 1 < top p); [|nia]. apply H, owns_links. nia.
Qed.
Lemma slot_owned l n i : inside l (TLinks n) -> (i < n)%nat ->
  slot p (Npos l) i = Npos l + N.of_nat i * linkSize p /\ ∀ x, slot p (Npos l) i <= x < slot p (Npos l) i + linkSize p -> owns l (TLinks n) x.
Proof.
  intros Hin Hi. rewrite (slot_at p l n i (inside_roomy _ _ Hin) Hi). split; [done|]. intros x Hx. apply owns_links. nia.
Qed.
Lemma root_owned l s n d q x : Npos l <= x < Npos l + linkSize p -> owns l (TRoot s n d q) x.
Proof. intros Hx. simpl. destruct (root_layout p) as (H1 & _). left. lia. Qed.

Lemma read_agree B B' l t : inside l t -> (∀ x, owns l t x -> B x = B' x) -> read_block p B l t = read_block p B' l t.
Proof.
  intros Hin H. destruct t as [n|v k|s n d q]; cbn [read_block]; [|done|].
  - f_equal. apply map_ext_in. intros i Hi. apply in_seq in Hi. apply get_link_agree. intros x Hx. apply H.
    apply (slot_owned l n i Hin); [lia|done].
  - f_equal. f_equal. apply get_link_agree. intros x Hx. apply H. by apply root_owned.
Qed.
Lemma write_out B l b x : inside l (typed b) -> ¬ owns l (typed b) x -> write_block p B l b x = B x.
Proof.
  intros Hin Hx. destruct b as [ls|v k|r]; cbn [write_block typed] in *; [|done|].
  - apply (put_slots_out p l (length ls) (inside_roomy _ _ Hin)); [lia|]. rewrite owns_links in Hx. rewrite Nat.add_0_l. change (N.of_nat 0) with 0. lia.
  - apply put_link_out. assert (¬ (Npos l <= x < Npos l + linkSize p)) by (intros Hy; by apply Hx, root_owned). lia.
Qed.
Lemma write_good B l b : good_bytes B -> good_bytes (write_block p B l b).
Proof. intros HB. destruct b; cbn [write_block]; [by apply put_slots_good|done|by apply put_link_good]. Qed.
Lemma read_write B l b : inside l (typed b) -> fits p b -> read_block p (write_block p B l b) l (typed b) = b.
Proof.
  intros Hin Hf. destruct b as [ls|v k|r]; cbn [write_block typed read_block fits] in *; [|done|].
  - f_equal. apply list_eq. intros i. rewrite list_lookup_fmap. destruct (decide (i < length ls)%nat) as [Hi|Hi].
    + rewrite lookup_seq_lt by done. cbn [fmap option_fmap option_map]. destruct (lookup_lt_is_Some_2 _ _ Hi) as [x Hx]. rewrite Hx. f_equal.
      rewrite Nat.add_0_l. apply (put_slots_get p l (length ls) (inside_roomy _ _ Hin) B 0 ls i x); [lia|done|done].
    + rewrite !(proj2 (lookup_ge_None _ _)); [done|lia|rewrite seq_length; lia].
  - rewrite get_put_link by apply Hf. by destruct r.
Qed.

Lemma view_lookup B T l : view p B T !! l = read_block p B l <$> T !! l.
Proof. unfold view. rewrite map_lookup_imap. by destruct (T !! l). Qed.
Lemma placed_inside T l t : placed T -> T !! l = Some t -> inside l t.
Proof. intros [H _]. apply H. Qed.
Lemma view_agree B B' T : placed T -> (∀ x, B x = B' x) -> view p B T = view p B' T.
Proof.
  intros HT H. apply map_eq. intros l. rewrite !view_lookup. destruct (T !! l) as [t|] eqn:E; [|done]. cbn. f_equal.
  apply read_agree; [by eapply placed_inside|]. intros. apply H.
Qed.
Lemma view_write B T l b : placed (<[l := typed b]> T) -> fits p b ->
  view p (write_block p B l b) (<[l := typed b]> T) = <[l := b]> (view p B T).
Proof.
  intros HT Hf. assert (Hl : <[l := typed b]> T !! l = Some (typed b)) by apply lookup_insert. pose proof (placed_inside _ _ _ HT Hl) as Hin.
  apply map_eq. intros l'. destruct (decide (l' = l)) as [->|Hne].
  - rewrite lookup_insert, view_lookup, Hl. cbn. by rewrite read_write.
  - rewrite lookup_insert_ne by done. rewrite !view_lookup. rewrite lookup_insert_ne by done. destruct (T !! l') as [t|] eqn:E; [|done]. cbn. f_equal.
    assert (E' : <[l := typed b]> T !! l' = Some t) by by rewrite lookup_insert_ne.
    apply read_agree; [by eapply placed_inside|]. intros x Hx. apply write_out; [done|]. intros Ho. apply Hne. destruct HT as [_ HT]. by eapply HT.
Qed.
Lemma placed_like T l t t' : placed T -> T !! l = Some t -> like t t' -> placed (<[l := t']> T).
Proof.
  intros [H1 H2] Hl Hk.
  assert (Hsub : ∀ a u, <[l := t']> T !! a = Some u -> ∃ u', T !! a = Some u' /\ ∀ x, owns a u x -> owns a u' x).
  { intros a u Hu. destruct (decide (a = l)) as [->|Hne].
    - rewrite lookup_insert in Hu. simplify_eq. exists t. split; [done|]. intros x. apply like_owns. by apply like_sym.
    - rewrite lookup_insert_ne in Hu by done. by exists u. }
  split.
  - intros a u Hu. destruct (Hsub _ _ Hu) as (u' & Hu' & Ho). destruct (H1 _ _ Hu') as [Ha Hx]. split; [done|]. intros x Hox. by apply Hx, Ho.
  - intros a a' u v x Hu Hv Hx Hy. destruct (Hsub _ _ Hu) as (u' & Hu' & Ho). destruct (Hsub _ _ Hv) as (v' & Hv' & Ho'). eapply H2; [exact Hu'|exact Hv'|by apply Ho|by apply Ho'].
Qed.
Lemma placed_sub T T' : placed T -> T' ⊆ T -> placed T'.
Proof.
  intros [H1 H2] Hs. split.
  - intros l t Hl. apply H1. by eapply lookup_weaken.
  - intros l l' t t' x Hl Hl'. apply H2; by eapply lookup_weaken.
Qed.
Lemma placed_empty : placed ∅.
Proof. split; intros *; by rewrite lookup_empty. Qed.

(** Numbers outside the bytes. *)
Definition fits_t t : Prop :=
  match t with TRoot _ n d q => n < 2 ^ 64 /\ d < 2 ^ 64 /\ Forall (λ x, pl_radix x < 2 ^ 8) q | _ => True end.
Lemma fits_typed b : fits p b -> fits_t (typed b).
Proof. destruct b; simpl; [done|done|]. by intros (_ & H). Qed.
Lemma read_fits B l t : good_bytes B -> fits_t t -> fits p (read_block p B l t).
Proof.
  intros HB Ht. destruct t as [n|v k|s n d q]; simpl; [|done|].
  - apply Forall_forall. intros x Hx. apply elem_of_list_fmap in Hx as (i & -> & _). by apply get_link_fits.
  - split; [by apply get_link_fits|done].
Qed.

(** ** Loads and stores through computed addresses *)
Lemma view_links B T (a : loc) ls : view p B T !! a = Some (BLinks ls) -> T !! a = Some (TLinks (length ls)) /\
  ∀ i x, ls !! i = Some x -> get_link p B (slot p (Npos a) i) = x.
Proof.
  rewrite view_lookup. destruct (T !! a) as [[n|v k|s n d q]|]; cbn; try done. intros [= <-]. rewrite map_length, seq_length. split; [done|].
  intros i x Hi. apply list_lookup_fmap_Some in Hi as (j & Hj & ->). by apply lookup_seq in Hj as [-> _].
Qed.
Lemma view_root B T (r : loc) rt : view p B T !! r = Some (BRoot rt) ->
  T !! r = Some (TRoot (rt_seed rt) (rt_len rt) (rt_dep rt) (rt_path rt)) /\ get_link p B (Npos r) = rt_link rt.
Proof. rewrite view_lookup. destruct (T !! r) as [[n|v k|s n d q]|]; cbn; try done. by intros [= <-]. Qed.
Lemma store_bytes B T (a : loc) ls i x : good_bytes B -> placed T -> view p B T !! a = Some (BLinks ls) -> (i < length ls)%nat ->
  ∀ y, write_block p B a (BLinks (V:=V) (CK:=CK) (<[i := x]> ls)) y = put_link p B (slot p (Npos a) i) x y.
Proof.
  intros HB HT Ha Hi y. destruct (view_links _ _ _ _ Ha) as [Hl Hg]. cbn [write_block].
  rewrite <- (Nat.add_0_l i) at 2. apply (put_slots_one p a (length ls)); [by eapply inside_roomy, placed_inside|done| |lia|done].
  intros j z Hz. by apply Hg.
Qed.
Lemma store_slot B T (a : loc) ls i x : good_bytes B -> placed T -> view p B T !! a = Some (BLinks ls) -> (i < length ls)%nat -> fits_link p x ->
  view p (put_link p B (slot p (Npos a) i) x) T = <[a := BLinks (<[i := x]> ls)]> (view p B T).
Proof.
  intros HB HT Ha Hi Hx. destruct (view_links _ _ _ _ Ha) as [Hl Hg].
  assert (Hf : Forall (fits_link p) ls).
  { apply Forall_lookup. intros j z Hz. rewrite <- (Hg _ _ Hz). by apply get_link_fits. }
  assert (ET : <[a := typed (V:=V) (CK:=CK) (BLinks (<[i := x]> ls))]> T = T). { apply insert_id. simpl. by rewrite insert_length. }
  rewrite <- (view_write B T a (BLinks (<[i := x]> ls))).
  - rewrite ET. apply view_agree; [done|]. intros y. symmetry. by eapply store_bytes.
  - by rewrite ET.
  - simpl. by apply Forall_insert.
Qed.
Lemma store_root_link B T (r : loc) rt x : placed T -> view p B T !! r = Some (BRoot rt) ->
  fits p (BRoot (V:=V) (CK:=CK) (Root x (rt_seed rt) (rt_len rt) (rt_dep rt) (rt_path rt))) ->
  view p (put_link p B (Npos r) x) T = <[r := BRoot (Root x (rt_seed rt) (rt_len rt) (rt_dep rt) (rt_path rt))]> (view p B T).
Proof.
  intros HT Hr Hf. destruct (view_root _ _ _ _ Hr) as [Hl _]. set (b := BRoot (V:=V) (CK:=CK) (Root x (rt_seed rt) (rt_len rt) (rt_dep rt) (rt_path rt))) in *.
  assert (ET : <[r := typed b]> T = T) by by apply insert_id.
  rewrite <- (view_write B T r b); [|by rewrite ET|done]. by rewrite ET.
Qed.
End blocks.
