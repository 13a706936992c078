(** Facts about the layout of Go's types and about memory as bytes. *)
From stdpp Require Import base numbers list gmap.
From Verif Require Import Mem LayoutSpec.
Local Open Scope N_scope.

(** ** Rounding *)
Lemma round_up_ge x a : 0 < a -> x <= round_up x a.
Proof. intros Ha. unfold round_up. pose proof (N.div_mod (x + (a - 1)) a ltac:(lia)) as E. pose proof (N.mod_lt (x + (a - 1)) a ltac:(lia)). nia. Qed.
Lemma round_up_mult x a : 0 < a -> round_up x a mod a = 0.
Proof. intros Ha. unfold round_up. apply N.mod_mul. lia. Qed.

(** ** Powers of two *)
Definition pow2 (a : N) : Prop := ∃ e, a = 2 ^ e.
Lemma pow2_pos a : pow2 a -> 0 < a.
Proof. intros [e ->]. apply N.neq_0_lt_0, N.pow_nonzero. lia. Qed.
Lemma pow2_max a b : pow2 a -> pow2 b -> pow2 (N.max a b).
Proof. intros Ha Hb. destruct (N.max_spec a b) as [[_ ->]|[_ ->]]; done. Qed.
Lemma pow2_divide a b : pow2 a -> pow2 b -> a <= b -> (a | b).
Proof.
  intros [e ->] [f ->] H. apply N.pow_le_mono_r_iff in H; [|lia]. exists (2 ^ (f - e)). rewrite <- N.pow_add_r. f_equal. lia.
Qed.

Section gty_ind.
Variable P : gty -> Prop.
Hypotheses (Hu : ∀ n, P (GUint n)) (Hp : P GPtr) (Ha : ∀ n t, P t -> P (GArray n t)) (Hs : ∀ fs, Forall P fs -> P (GStruct fs)) (Hy : ∀ s a, P (GAny s a)).
Fixpoint gty_deep (t : gty) : P t :=
  match t with
  | GUint n => Hu n
  | GPtr => Hp
  | GArray n t => Ha n t (gty_deep t)
  | GStruct fs => Hs fs ((fix go fs := match fs return Forall P fs with [] => Forall_nil_2 P | f :: fs => Forall_cons_2 P f fs (gty_deep f) (go fs) end) fs)
  | GAny s a => Hy s a
  end.
End gty_ind.

Lemma real_fields fs : real (GStruct fs) <-> Forall real fs.
Proof. cbn [real]. induction fs as [|f fs IH]; simpl; [done|]. rewrite Forall_cons, IH. done. Qed.

Section layout.
Variable p : platform.
Lemma align_pow2 t : real t -> pow2 (align p t).
Proof.
  induction t as [n| |n t IH|fs IH|s a] using gty_deep; cbn [align]; intros Hr.
  - cbn [real] in Hr. unfold word, pow2. destruct (wide p); destruct Hr as [->|[->|[->| ->]]];
      first [by exists 0|by exists 1|by exists 2|by exists 3].
  - unfold word. destruct (wide p); [by exists 3|by exists 2].
  - by apply IH.
  - apply real_fields in Hr. induction fs as [|f fs IHfs]; cbn [foldr]; [by exists 0|]. inversion IH; inversion Hr; subst. apply pow2_max; auto.
  - apply Hr.
Qed.
Lemma align_pos t : real t -> 0 < align p t.
Proof. intros Hr. by apply pow2_pos, align_pow2. Qed.
Lemma align_field fs f : f ∈ fs -> align p f <= align p (GStruct fs).
Proof.
  cbn [align]. induction fs as [|g fs IH]; intros Hf; [by apply elem_of_nil in Hf|]. cbn [foldr].
  apply elem_of_cons in Hf as [->|Hf]; [lia|]. specialize (IH Hf). lia.
Qed.

Lemma ends_snoc fs f : ends p (fs ++ [f]) = round_up (ends p fs) (align p f) + size p f.
Proof. unfold ends. by rewrite fold_left_app. Qed.
Lemma size_ends fs : fold_left (λ x f, (round_up x.1 (align p f) + size p f, size p f)) fs (0, 1) = (ends p fs, default 1 (size p <$> last fs)).
Proof.
  induction fs as [|f fs IH] using rev_ind; [done|]. rewrite fold_left_app, IH, ends_snoc, last_snoc. done.
Qed.
Lemma size_struct fs : size p (GStruct fs) = round_up (pad (default 1 (size p <$> last fs)) (ends p fs)) (align p (GStruct fs)).
Proof. cbn [size]. by rewrite size_ends. Qed.
Lemma pad_ge s e : e <= pad s e.
Proof. unfold pad. destruct (_ && _); lia. Qed.

Lemma ends_mono fs : Forall real fs -> ∀ i j, (i <= j)%nat -> ends p (take i fs) <= ends p (take j fs).
Proof.
  intros Hr i j Hij. induction Hij as [|j Hij IH]; [done|]. etrans; [exact IH|].
  destruct (fs !! j) as [f|] eqn:E.
  - rewrite (take_S_r _ _ _ E), ends_snoc. pose proof (round_up_ge (ends p (take j fs)) (align p f) (align_pos f (Forall_lookup_1 _ _ _ _ Hr E))). lia.
  - apply lookup_ge_None in E. rewrite !take_ge; [done|lia|lia].
Qed.
Lemma offset_ends fs i f : fs !! i = Some f -> offset p fs i + size p f = ends p (take (S i) fs).
Proof. intros E. unfold offset. by rewrite E, (take_S_r _ _ _ E), ends_snoc. Qed.
Lemma ends_offset fs i f : Forall real fs -> fs !! i = Some f -> ends p (take i fs) <= offset p fs i.
Proof. intros Hr E. unfold offset. rewrite E. apply round_up_ge, align_pos. by eapply Forall_lookup_1. Qed.

Lemma field_in fs i f : real (GStruct fs) -> fs !! i = Some f -> offset p fs i + size p f <= size p (GStruct fs).
Proof.
  intros Hr E. rewrite (offset_ends _ _ _ E), size_struct. pose proof (align_pos _ Hr) as Ha.
  pose proof (round_up_ge (pad (default 1 (size p <$> last fs)) (ends p fs)) _ Ha) as H1. pose proof (pad_ge (default 1 (size p <$> last fs)) (ends p fs)) as H2.
  apply real_fields in Hr. pose proof (ends_mono fs Hr (S i) (length fs)) as H3. rewrite (take_ge fs (length fs)) in H3 by lia.
  apply lookup_lt_Some in E. specialize (H3 ltac:(lia)). lia.
Qed.
Lemma fields_apart fs i j f g : real (GStruct fs) -> (i < j)%nat -> fs !! i = Some f -> fs !! j = Some g -> offset p fs i + size p f <= offset p fs j.
Proof.
  intros Hr Hij Ei Ej. apply real_fields in Hr. rewrite (offset_ends _ _ _ Ei). etrans; [|by eapply ends_offset]. apply ends_mono; [done|lia].
Qed.
Lemma field_aligned fs i f base : real (GStruct fs) -> fs !! i = Some f -> base mod align p (GStruct fs) = 0 -> (base + offset p fs i) mod align p f = 0.
Proof.
  intros Hr E Hb. pose proof (align_pos _ Hr) as Hp. pose proof Hr as Hf. apply real_fields in Hf. pose proof (Forall_lookup_1 _ _ _ _ Hf E) as Hrf.
  pose proof (align_pos f Hrf) as Hpf.
  assert (Hd : (align p f | align p (GStruct fs))).
  { apply pow2_divide; [by apply align_pow2..|]. apply align_field. by eapply elem_of_list_lookup_2. }
  apply N.mod_divide; [lia|]. apply N.divide_add_r.
  - etrans; [exact Hd|]. apply N.mod_divide; [lia|done].
  - unfold offset. rewrite E. apply N.mod_divide; [lia|]. by apply round_up_mult.
Qed.
(** Also a field without size is inside the struct, if the struct has a size. *)
Lemma field_inside fs i f : real (GStruct fs) -> fs !! i = Some f -> 0 < size p (GStruct fs) -> offset p fs i < size p (GStruct fs).
Proof.
  intros Hr E Hs. pose proof (field_in fs i f Hr E) as H. destruct (decide (size p f = 0)) as [Hz|Hz]; [|lia].
  pose proof (align_pos _ Hr) as Ha. pose proof Hr as Hf. apply real_fields in Hf.
  pose proof (offset_ends fs i f E) as Ho. rewrite Hz, N.add_0_r in Ho.
  pose proof (ends_mono fs Hf (S i) (length fs)) as H3. rewrite (take_ge fs (length fs)) in H3 by lia.
  pose proof (lookup_lt_Some _ _ _ E) as Hlt. specialize (H3 ltac:(lia)).
  rewrite size_struct in *. pose proof (round_up_ge (pad (default 1 (size p <$> last fs)) (ends p fs)) _ Ha) as H1. pose proof (pad_ge (default 1 (size p <$> last fs)) (ends p fs)) as H2.
  destruct (last fs) as [g|] eqn:El; cbn [fmap option_fmap option_map default from_option id] in *.
  2:{ apply last_None in El. by subst fs. }
  destruct (decide (size p g = 0)) as [Hg|Hg].
  - unfold pad in *. rewrite Hg in *. cbn [N.eqb andb] in *. destruct (ends p fs =? 0) eqn:Ee; cbn [negb] in *.
    + apply N.eqb_eq in Ee. rewrite Ee in Hs. unfold round_up in Hs. rewrite N.add_0_l, N.div_small in Hs by lia. lia.
    + lia.
  - (* the last field has a size *)
    destruct (decide (S i = length fs)) as [Hi|Hi].
    + rewrite last_lookup, <- Hi in El. simpl in El. rewrite E in El. simplify_eq.
    + assert (El' : fs !! (length fs - 1)%nat = Some g). { rewrite last_lookup in El. by replace (length fs - 1)%nat with (pred (length fs)) by lia. }
      pose proof (offset_ends fs _ g El') as Hg2. pose proof (fields_apart fs i (length fs - 1) f g Hr ltac:(lia) E El') as H4.
      rewrite (take_ge fs) in Hg2 by lia. lia.
Qed.
Lemma size_aligned t : real t -> size p t mod align p t = 0.
Proof.
  induction t as [n| |n t IH|fs IH|s a] using gty_deep; intros Hr.
  - cbn [real] in Hr. unfold align, size, word. destruct (wide p); destruct Hr as [->|[->|[->| ->]]]; done.
  - cbn [align size]. unfold word. by destruct (wide p).
  - cbn [align size]. pose proof (align_pos t Hr) as Ha. apply N.mod_divide; [lia|]. apply N.divide_mul_r. apply N.mod_divide; [lia|]. by apply IH.
  - rewrite size_struct. apply round_up_mult. by apply align_pos.
  - apply Hr.
Qed.
Lemma element_in n t i : i < n -> i * size p t + size p t <= size p (GArray n t).
Proof. intros Hi. cbn [size]. nia. Qed.
Lemma element_aligned t i base : real t -> base mod align p t = 0 -> (base + i * size p t) mod align p t = 0.
Proof.
  intros Hr Hb. pose proof (align_pos t Hr) as Ha. apply N.mod_divide; [lia|]. apply N.divide_add_r; [by apply N.mod_divide; [lia|]|].
  apply N.divide_mul_r. apply N.mod_divide; [lia|]. by apply size_aligned.
Qed.
End layout.

(** ** Bytes *)
Lemma digits_length n x : length (digits n x) = n.
Proof. revert x. induction n as [|n IH]; intros x; simpl; [done|]. by rewrite IH. Qed.
Lemma digits_byte n x : Forall (λ b, b < 256) (digits n x).
Proof. revert x. induction n as [|n IH]; intros x; cbn [digits]; constructor; [apply N.mod_lt; lia|apply IH]. Qed.
Lemma value_digits n x : x < 256 ^ N.of_nat n -> value (digits n x) = x.
Proof.
  revert x. induction n as [|n IH]; intros x Hx; cbn [digits value foldr].
  - change (256 ^ N.of_nat 0) with 1 in Hx. lia.
  - change (foldr _ 0 (digits n (x / 256))) with (value (digits n (x / 256))). rewrite IH.
    + pose proof (N.div_mod x 256 ltac:(lia)). lia.
    + rewrite Nat2N.inj_succ, N.pow_succ_r' in Hx. by apply N.div_lt_upper_bound; [lia|].
Qed.
Lemma value_lt bs : Forall (λ b, b < 256) bs -> value bs < 256 ^ N.of_nat (length bs).
Proof.
  induction 1 as [|b bs Hb _ IH]; [done|]. cbn [length value foldr]. change (foldr _ 0 bs) with (value bs). rewrite Nat2N.inj_succ, N.pow_succ_r'. lia.
Qed.
Lemma digits_value bs : Forall (λ b, b < 256) bs -> digits (length bs) (value bs) = bs.
Proof.
  induction 1 as [|b bs Hb _ IH]; [done|]. cbn [length digits value foldr]. change (foldr _ 0 bs) with (value bs).
  assert (E1 : (b + 256 * value bs) mod 256 = b). { rewrite N.mul_comm, N.mod_add by lia. by apply N.mod_small. }
  assert (E2 : (b + 256 * value bs) / 256 = value bs). { rewrite N.mul_comm, N.div_add by lia. rewrite N.div_small by done. lia. }
  by rewrite E1, E2, IH.
Qed.

Section bytes.
Variable p : platform.
Lemma bytes_of_length n x : length (bytes_of p n x) = n.
Proof. unfold bytes_of. destruct (big p); [rewrite rev_length|]; apply digits_length. Qed.
Lemma bytes_of_byte n x : Forall (λ b, b < 256) (bytes_of p n x).
Proof. unfold bytes_of. destruct (big p); [apply Forall_rev|]; apply digits_byte. Qed.
Lemma number_bytes n x : x < 256 ^ N.of_nat n -> number_of p (bytes_of p n x) = x.
Proof. intros Hx. unfold number_of, bytes_of. destruct (big p); [rewrite rev_involutive|]; by apply value_digits. Qed.
Lemma bytes_number bs : Forall (λ b, b < 256) bs -> bytes_of p (length bs) (number_of p bs) = bs.
Proof.
  intros Hb. unfold number_of, bytes_of. destruct (big p); [|by apply digits_value].
  rewrite <- (rev_length bs), digits_value; [apply rev_involutive|by apply Forall_rev].
Qed.
Lemma number_lt bs : Forall (λ b, b < 256) bs -> number_of p bs < 256 ^ N.of_nat (length bs).
Proof.
  intros Hb. unfold number_of. destruct (big p); [|by apply value_lt]. rewrite <- (rev_length bs). apply value_lt. by apply Forall_rev.
Qed.
End bytes.

Definition good_bytes (B : bytemem) : Prop := ∀ x, B x < 256.
Lemma fetch_length B a n : length (fetch B a n) = n.
Proof. unfold fetch. by rewrite map_length, seq_length. Qed.
Lemma fetch_byte B a n : good_bytes B -> Forall (λ b, b < 256) (fetch B a n).
Proof. intros HB. unfold fetch. apply Forall_forall. intros b Hb. apply elem_of_list_fmap in Hb as (i & -> & _). apply HB. Qed.
Lemma fetch_lookup B a n i : (i < n)%nat -> fetch B a n !! i = Some (B (a + N.of_nat i)).
Proof. intros Hi. unfold fetch. rewrite list_lookup_fmap, lookup_seq_lt by done. done. Qed.
Lemma fetch_agree B B' a n : (∀ x, a <= x < a + N.of_nat n -> B x = B' x) -> fetch B a n = fetch B' a n.
Proof. intros H. unfold fetch. apply map_ext_in. intros i Hi. apply in_seq in Hi. apply H. lia. Qed.
Lemma put_out B a bs x : (x < a \/ a + N.of_nat (length bs) <= x) -> put B a bs x = B x.
Proof.
  intros H. unfold put. destruct (N.leb_spec a x) as [Hax|]; [|done]. rewrite (proj2 (lookup_ge_None _ _)); [done|]. lia.
Qed.
Lemma put_in B a bs i b : bs !! i = Some b -> put B a bs (a + N.of_nat i) = b.
Proof.
  intros H. unfold put. destruct (N.leb_spec a (a + N.of_nat i)) as [_|]; [|lia].
  replace (N.to_nat (a + N.of_nat i - a)) with i by lia. by rewrite H.
Qed.
Lemma put_good B a bs : good_bytes B -> Forall (λ b, b < 256) bs -> good_bytes (put B a bs).
Proof.
  intros HB Hbs x. unfold put. destruct (_ <=? _); [|apply HB]. destruct (bs !! _) as [b|] eqn:E; [|apply HB]. exact (Forall_lookup_1 _ _ _ _ Hbs E).
Qed.
Lemma fetch_put B a bs : fetch (put B a bs) a (length bs) = bs.
Proof.
  apply list_eq. intros i. destruct (decide (i < length bs)%nat) as [Hi|Hi].
  - rewrite fetch_lookup by done. destruct (lookup_lt_is_Some_2 _ _ Hi) as [b Hb]. by rewrite Hb, (put_in _ _ _ _ _ Hb).
  - rewrite !(proj2 (lookup_ge_None _ _)); [done|lia|rewrite fetch_length; lia].
Qed.
Lemma put_fetch B a n x : put B a (fetch B a n) x = B x.
Proof.
  unfold put. destruct (N.leb_spec a x) as [Hax|]; [|done]. destruct (decide (N.to_nat (x - a) < n)%nat) as [Hi|Hi].
  - rewrite fetch_lookup by done. f_equal. lia.
  - rewrite (proj2 (lookup_ge_None _ _)); [done|]. rewrite fetch_length. lia.
Qed.
Lemma put_ext B B' a bs : (∀ x, B x = B' x) -> ∀ x, put B a bs x = put B' a bs x.
Proof. intros H x. unfold put. destruct (_ <=? _); [|done]. by destruct (bs !! _). Qed.

(** ** Links *)
Section links.
Variable p : platform.
Lemma link_layout : ptr_off p = 0 /\ pmap_off p = word p /\ tmap_off p = word p + 4 /\ linkSize p = word p + 8.
Proof. destruct p as [[] []]; vm_compute; done. Qed.
Lemma word_nat : N.of_nat (N.to_nat (word p)) = word p.
Proof. lia. Qed.
Lemma word_pos : 4 <= word p.
Proof. unfold word. destruct (wide p); lia. Qed.
Lemma top_word : 256 ^ N.of_nat (N.to_nat (word p)) = top p.
Proof. unfold top, word. by destruct (wide p). Qed.
Lemma four : 256 ^ N.of_nat 4 = 2 ^ 32.
Proof. done. Qed.
Lemma ptr_at_addr q : ptr_at (addr_of q) = q.
Proof. by destruct q. Qed.
Lemma addr_at x : addr_of (ptr_at x) = x.
Proof. by destruct x. Qed.

Lemma get_num_agree B B' a n : (∀ x, a <= x < a + N.of_nat n -> B x = B' x) -> get_num p B a n = get_num p B' a n.
Proof. intros H. unfold get_num. f_equal. by apply fetch_agree. Qed.
Lemma put_num_out B a n v x : (x < a \/ a + N.of_nat n <= x) -> put_num p B a n v x = B x.
Proof. intros H. apply put_out. by rewrite bytes_of_length. Qed.
Lemma get_put_num B a n v : v < 256 ^ N.of_nat n -> get_num p (put_num p B a n v) a n = v.
Proof.
  intros Hv. unfold get_num, put_num. rewrite <- (bytes_of_length p n v) at 2. rewrite fetch_put. by apply number_bytes.
Qed.
Lemma get_other_num B a n v a' n' : (a + N.of_nat n <= a' \/ a' + N.of_nat n' <= a) -> get_num p (put_num p B a n v) a' n' = get_num p B a' n'.
Proof. intros H. apply get_num_agree. intros x Hx. apply put_num_out. lia. Qed.
Lemma put_num_good B a n v : good_bytes B -> good_bytes (put_num p B a n v).
Proof. intros HB. apply put_good; [done|apply bytes_of_byte]. Qed.
Lemma get_num_lt B a n : good_bytes B -> get_num p B a n < 256 ^ N.of_nat n.
Proof. intros HB. unfold get_num. rewrite <- (fetch_length B a n) at 2. by apply number_lt, fetch_byte. Qed.
Lemma put_get_num B a n x : good_bytes B -> put_num p B a n (get_num p B a n) x = B x.
Proof.
  intros HB. unfold put_num, get_num. pose proof (bytes_number p (fetch B a n) (fetch_byte B a n HB)) as E. rewrite fetch_length in E. rewrite E. apply put_fetch.
Qed.
Lemma put_num_ext B B' a n v : (∀ x, B x = B' x) -> ∀ x, put_num p B a n v x = put_num p B' a n v x.
Proof. apply put_ext. Qed.

Ltac unoff := unfold put_ptr, put_pmap, put_tmap, get_link in *; destruct link_layout as (E0 & Epm & Etm & EL); rewrite ?E0, ?Epm, ?Etm; clear E0 Epm Etm.
Lemma get_link_agree B B' a : (∀ x, a <= x < a + linkSize p -> B x = B' x) -> get_link p B a = get_link p B' a.
Proof.
  unoff. rewrite EL. intros H. pose proof word_pos. f_equal; [f_equal| |]; apply get_num_agree; intros x Hx; apply H; rewrite ?word_nat in Hx; lia.
Qed.
Lemma get_link_fits B a : good_bytes B -> fits_link p (get_link p B a).
Proof.
  intros HB. unoff. unfold fits_link. cbn [lk_ptr lk_pmap lk_tmap]. rewrite addr_at. rewrite <- top_word. rewrite <- four.
  split_and!; by apply get_num_lt.
Qed.
(** Writing a field changes that field. *)
Lemma get_put_ptr B a q : addr_of q < top p -> get_link p (put_ptr p B a q) a = Link q (lk_pmap (get_link p B a)) (lk_tmap (get_link p B a)).
Proof.
  unoff. cbn [lk_pmap lk_tmap]. intros Hq. rewrite get_put_num by by rewrite top_word. rewrite ptr_at_addr.
  pose proof word_pos. rewrite !get_other_num by (rewrite word_nat; lia). done.
Qed.
Lemma get_put_pmap B a x : x < 2 ^ 32 -> get_link p (put_pmap p B a x) a = Link (lk_ptr (get_link p B a)) x (lk_tmap (get_link p B a)).
Proof.
  unoff. cbn [lk_ptr lk_tmap]. intros Hx. rewrite (get_put_num B (a + word p) 4 x) by by rewrite four.
  rewrite !get_other_num by (rewrite ?word_nat; lia). done.
Qed.
Lemma get_put_tmap B a x : x < 2 ^ 32 -> get_link p (put_tmap p B a x) a = Link (lk_ptr (get_link p B a)) (lk_pmap (get_link p B a)) x.
Proof.
  unoff. cbn [lk_ptr lk_pmap]. intros Hx. rewrite (get_put_num B (a + (word p + 4)) 4 x) by by rewrite four.
  rewrite !get_other_num by (rewrite ?word_nat; lia). done.
Qed.
Lemma put_ptr_out B a q x : (x < a \/ a + linkSize p <= x) -> put_ptr p B a q x = B x.
Proof. unoff. rewrite EL. intros H. apply put_num_out. rewrite word_nat. lia. Qed.
Lemma put_pmap_out B a v x : (x < a \/ a + linkSize p <= x) -> put_pmap p B a v x = B x.
Proof. unoff. rewrite EL. intros H. apply put_num_out. lia. Qed.
Lemma put_tmap_out B a v x : (x < a \/ a + linkSize p <= x) -> put_tmap p B a v x = B x.
Proof. unoff. rewrite EL. intros H. apply put_num_out. lia. Qed.
Lemma put_link_out B a v x : (x < a \/ a + linkSize p <= x) -> put_link p B a v x = B x.
Proof. intros H. unfold put_link. by rewrite put_tmap_out, put_pmap_out, put_ptr_out. Qed.
Lemma get_put_link B a x : fits_link p x -> get_link p (put_link p B a x) a = x.
Proof.
  intros (H1 & H2 & H3). unfold put_link. rewrite get_put_tmap by done. rewrite get_put_pmap by done. rewrite get_put_ptr by done. by destruct x.
Qed.
Lemma get_other_link B a x a' : (a + linkSize p <= a' \/ a' + linkSize p <= a) -> get_link p (put_link p B a x) a' = get_link p B a'.
Proof. intros H. apply get_link_agree. intros y Hy. apply put_link_out. lia. Qed.
Lemma put_link_good B a x : good_bytes B -> good_bytes (put_link p B a x).
Proof. intros HB. unfold put_link, put_ptr, put_pmap, put_tmap. by do 3 apply put_num_good. Qed.
Lemma put_link_ext B B' a x : (∀ y, B y = B' y) -> ∀ y, put_link p B a x y = put_link p B' a x y.
Proof. intros H. unfold put_link, put_ptr, put_pmap, put_tmap. by do 3 apply put_num_ext. Qed.
(** Writing what is there changes nothing. *)
Lemma put_get_link B a x : good_bytes B -> put_link p B a (get_link p B a) x = B x.
Proof.
  intros HB. unfold put_link. unoff. cbn [lk_ptr lk_pmap lk_tmap]. rewrite addr_at.
  set (B1 := put_num p B (a + 0) (N.to_nat (word p)) (get_num p B (a + 0) (N.to_nat (word p)))).
  assert (E1 : ∀ y, B1 y = B y) by (intros y; by apply put_get_num).
  set (B2 := put_num p B1 (a + word p) 4 (get_num p B (a + word p) 4)).
  assert (E2 : ∀ y, B2 y = B y). { intros y. unfold B2. rewrite (put_num_ext _ _ _ _ _ E1). by apply put_get_num. }
  rewrite (put_num_ext _ _ _ _ _ E2). by apply put_get_num.
Qed.
End links.
