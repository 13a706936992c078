(** Keys with the same digits that are not equal: an insertion of one while the
    other one is stored does not end. *)
From stdpp Require Import base numbers list gmap.
From Verif Require Import GoInt Mem Hash Amt Families BitsFacts Steps Tree Rep Paths Descend Insert Split Delete Remove Core Heap HashFacts Spec Levels Shape Weak Place WeakHeap.
Local Open Scope nat_scope.

Section alike.
Context {K HS V CK U : Type} (F : fam K HS V CK U) (L : layout K V CK).
Local Notation world := (world V CK U).
Implicit Types (w : world) (T : tree K) (k ck : K).

Lemma split_alike op r seed k ck cp fuel : ∀ d h ch w item x b,
  agree F seed k ck fuel d h ch -> w_ok w ->
  link_at (w_mem w) item = Some x -> base item = Some b ->
  split F op fuel r seed k ck cp h ch item d w = Hang.
Proof.
  induction fuel as [|fuel IH]; intros d h ch w item x b Hag Hwok Hx Hb; [done|].
  destruct Hag as [Hrad Hag].
  assert (Hb2 : (b < w_nxt w)%positive).
  { destruct (link_at_base _ _ _ Hx) as (b' & Hb' & [y Hy]). rewrite Hb in Hb'. injection Hb' as <-. by eapply Hwok. }
  cbn [Amt.split].
  set (h1 := advance F seed k (u8 (d + 1)) h) in *.
  set (ch1 := advance F seed ck (u8 (d + 1)) ch) in *.
  rewrite (bind_Ret _ _ _ _ _ (upd_link_step _ _ _ _ Hx)).
  pose proof (radix_of_lt h1) as Hn1. pose proof (radix_of_lt ch1) as Hn2.
  rewrite bit_of_eqb by lia. rewrite Hrad. rewrite N.eqb_refl. cbn [negb].
  rewrite (bind_Ret _ _ _ _ _ (new_link_array_step _ _)). simpl w_nxt.
  set (a0 := w_nxt w).
  assert (Hba : base item ≠ Some a0) by (rewrite Hb; unfold a0; intros [= ->]; lia).
  erewrite bind_Ret.
  2:{ eapply upd_link_step. simpl. rewrite link_at_insert_ne by done. by eapply link_at_put. }
  eapply IH.
  - exact Hag.
  - cbn [w_mem w_nxt w_usr]. intros l y Hy. simpl in *.
    destruct (decide (l = a0)) as [->|Hl]; [lia|].
    destruct (decide (base item = Some l)) as [E|E].
    + rewrite Hb in E. injection E as <-. unfold a0. lia.
    + rewrite put_lookup_ne in Hy by done. rewrite lookup_insert_ne in Hy by done.
      rewrite put_lookup_ne in Hy by done. apply Hwok in Hy. unfold a0. lia.
  - simpl. rewrite put_lookup_ne by done. by rewrite lookup_insert.
  - done.
Qed.

Hypothesis HF : fam_ok F L.
Variables (D : nat) (seed : N).
Hypothesis HD : D <= 254.

(** The key in the way has the same digits, now and in the loop that splits. *)
Lemma insert_alike op w r T k ck cp fuel : MapI L (S D) w r seed T -> w_ok w -> 256 <= fuel ->
  ly_ok L ck -> spot F seed T k ck cp -> f_eq F k ck = false ->
  (∀ n d ch, d <= D -> f_conf F n seed k ck (N.of_nat d) = Some ch ->
     radix_of ch = nib F seed k d /\ ∀ m, agree F seed k ck m (N.of_nat d) (hproc F seed k d) ch) ->
  insert F op fuel (Some r) k w = Hang.
Proof.
  intros HM Hwok Hf Hok Hsp E Hag. pose proof (MapI_wf _ _ _ _ _ _ HM) as Hwf.
  destruct (MapI_seed _ _ _ _ _ _ HM) as (rt & Hrt & Hs).
  unfold insert. rewrite (bind_Ret _ _ _ _ _ (load_root_step _ _ _ Hrt)). rewrite Hs.
  destruct (wdescend F L D seed HD w r T k fuel HM Hf) as (c & a & [(cs & Hst & Hd)|(bef & k2 & p2 & aft & Hst & Hd)]).
  { by eapply missing_spot in Hst. }
  destruct (spot_unique _ _ _ _ _ _ _ _ _ _ _ _ Hwf Hst Hsp) as [<- <-].
  rewrite (bind_Ret _ _ _ _ _ Hd).
  pose proof (MapI_cell _ _ _ _ _ _ _ _ HM (spot_leaf _ _ _ _ _ _ Hsp)) as Hcell.
  pose proof (witem_at _ _ _ _ _ _ _ _ _ _ _ _ _ _ HM Hst) as Hitem.
  unfold add_present. rewrite (bind_Ret _ _ _ _ _ (load_link_step _ _ _ Hitem)).
  rewrite (bind_Ret _ _ _ _ _ (fo_key _ _ HF _ _ _ Hok Hcell)). rewrite E.
  destruct Hst as (HT & Hr).
  assert (HM2 : MapI L (S D) w r seed (plug c (Node a (bef ++ (nib F seed k (length c), Leaf ck cp) :: aft)))) by (by rewrite HT).
  assert (Hlc : length c <= D).
  { pose proof (hgt_plug c (Node a (bef ++ (nib F seed k (length c), Leaf ck cp) :: aft))) as Hx. rewrite HT in Hx. simpl in Hx.
    assert (hgt T <= S D) by apply HM. lia. }
  destruct (f_conf F (fuel - 1 - length c) seed k ck (N.of_nat (length c))) as [ch|] eqn:Hconf; [|done].
  destruct (Hag _ _ _ Hlc Hconf) as [Hrad Hagree].
  change (radix_of (hproc F seed k (length c))) with (nib F seed k (length c)).
  rewrite Hrad, N.eqb_refl. cbn [negb]. rewrite andb_false_r.
  assert (Hne : match c with [] => True | f :: _ => fr_a f ≠ r end).
  { destruct HM2 as [_ Hnd _ _]. destruct c as [|f c']; [done|]. intros Ex.
    apply NoDup_cons in Hnd as [Hnd _]. apply Hnd. rewrite locs_plug. simpl. set_solver +Ex. }
  pose proof (mi_root _ _ _ _ _ _ HM2) as (rt0 & Hrt0 & Hseed & Hrep & _).
  rewrite Hrt in Hrt0. injection Hrt0 as <-.
  destruct (rep_hole L _ _ _ _ _ Hrt Hrep) as (lk & Hlk & Hnode).
  destruct (rep_node_link L _ _ _ _ _ _ _ _ Hnode) as [Elk _].
  set (lk0 := Link (At a) (lk_pmap lk) (andnot (lk_tmap lk) (bit_of (nib F seed k (length c))))).
  set (g0 := λ rt, rt_with_dep (sub64 (rt_dep rt) (N.of_nat (length c))) rt).
  set (m0 := mroot (put_link (w_mem w) (hole r c) lk0) r g0).
  destruct (final_lookups (w_mem w) r c lk lk0 g0 rt Hrt Hlk Hne) as (F1 & F2 & F3). fold m0 in F1, F2, F3.
  pose proof (mi_nodup _ _ _ _ _ _ HM2) as Hnd. rewrite locs_plug in Hnd. cbn [locs] in Hnd.
  assert (Hhole : ∀ b, base (hole r c) = Some b -> b ≠ a /\ b ∈ r :: clocs c).
  { intros b Eb. apply hole_in in Eb. split; [|done]. intros ->. clear -Hnd Eb.
    change (r :: clocs c ++ a :: ?x) with ((r :: clocs c) ++ a :: x) in Hnd.
    apply NoDup_app in Hnd as (_ & Hnd & _). apply (Hnd a Eb). set_solver +. }
  assert (Har : a ≠ r).
  { intros ->. apply NoDup_cons in Hnd as [Hx _]. set_solver +Hx. }
  rewrite (bind_Ret _ _ _ _ _ (upd_link_step _ _ _ _ Hlk)).
  erewrite bind_Ret.
  2:{ eapply upd_root_step. simpl.
      instantiate (1 := match c with [] => rt_with_link lk0 rt | _ => rt end).
      destruct c as [|f c']; simpl hole.
      - subst lk0. simpl. erewrite mroot_lookup by exact Hrt. unfold lk_with_tmap. by rewrite Elk.
      - rewrite put_lookup_ne by (simpl; congruence). done. }
  rewrite set_mem_set_mem. simpl w_mem.
  assert (Em : mroot (put_link (w_mem w) (hole r c) (lk_with_tmap (andnot (lk_tmap lk) (bit_of (nib F seed k (length c)))) lk)) r
    (λ rt, rt_with_dep (sub64 (rt_dep rt) (N.of_nat (length c))) rt) = m0).
  { unfold m0, lk0, g0, lk_with_tmap. by rewrite Elk. }
  match goal with |- _ (set_mem w ?m) = _ => replace m with m0 end.
  eapply split_alike; [apply Hagree| | |reflexivity].
  - assert (quiet (λ l, l ∈ r :: clocs c) w (set_mem w m0)) as Hqa; [|by apply (qu_ok _ _ _ Hqa)].
    apply (quiet_trans (λ l, l ∈ r :: clocs c) (λ l, l ∈ r :: clocs c) _ (set_mem w (put_link (w_mem w) (hole r c) lk0))); [| |done].
    + apply quiet_put. intros b Ex. by apply Hhole.
    + apply (quiet_mroot (λ l, l ∈ r :: clocs c) (set_mem w (put_link (w_mem w) (hole r c) lk0))). left.
  - simpl. rewrite F2; [exact Hitem|done|]. intros Ex. by apply Hhole in Ex as [? _].
Qed.
End alike.

(** Streaming hashes. *)
Section stream.
Context {K V CK U : Type} (sum64 : N -> bytes -> N) (kbytes : K -> bytes) (F : fam K mhash V CK U).
Hypothesis Hstart : f_start F = stream_start sum64 kbytes.
Hypothesis Hnext : f_next F = stream_next sum64 kbytes.

(** The depth wraps around, but the digits go on. *)
Lemma stream_wrap s k e : hproc F s k (S e) = advance F s k (u8 (u8 (N.of_nat e) + 1)) (hproc F s k e).
Proof.
  cbn [hproc]. unfold advance. rewrite Hnext.
  assert (Hm : (u8 (u8 (N.of_nat e) + 1) mod 16 = N.of_nat (S e) mod 16)%N).
  { unfold u8. rewrite N.add_mod_idemp_l by done.
    replace (N.of_nat e + 1)%N with (N.of_nat (S e)) by lia.
    change 256%N with (16 * 16)%N. rewrite N.mod_mul_r by done. rewrite N.mul_comm, N.mod_add by done. by apply N.mod_mod. }
  by rewrite Hm.
Qed.
Lemma stream_agree s k k' : (∀ d, digit sum64 s (kbytes k) d = digit sum64 s (kbytes k') d) ->
  ∀ n e, agree F s k k' n (u8 (N.of_nat e)) (hproc F s k e) (hproc F s k' e).
Proof.
  intros Hd. induction n as [|n IH]; intros e; [done|]. cbn [agree]. rewrite <- !stream_wrap. split.
  - change (nib F s k (S e) = nib F s k' (S e)). by rewrite !(stream_nib sum64 kbytes F Hstart Hnext).
  - assert (u8 (u8 (N.of_nat e) + 1) = u8 (N.of_nat (S e))) as ->; [|apply IH].
    unfold u8. rewrite N.add_mod_idemp_l by done. f_equal. lia.
Qed.
End stream.
