(** Keys that a call makes unreachable: C26 with a stored key in the way, and
    C04, C05 with a stale tmap. *)
From stdpp Require Import base numbers list gmap.
From Verif Require Import GoInt Mem Hash Amt Families BitsFacts Steps Tree Rep Paths Descend Insert Split Delete Remove Core Scan Order Heap Spec SpecFacts HashFacts Guards Client Types Refine RefineSet Instances Pack Observe ObserveFacts ObserveMap ObserveSet Levels Shape Weak ExactSpec Exact Broken Panics.
Local Open Scope nat_scope.

Section panic.
Context {V U : Type} (zero : V) (fuel : nat) (u0 : U) (Hfuel : 256 <= fuel).
Context `{Countable K} {CK : Type} (api : mapapi K V CK U) (dig : N -> K -> nat -> N).
Variable ok : list (mop K V U * mres V) -> mop K V U -> Prop.
Hypothesis Ht : map_type zero fuel api dig ok.

Lemma hindered tr (w : world V CK U) h s k k' f :
  prun dig api ok u0 tr w -> ok tr (MMod h k f) -> (MNew s, RHandle h) ∈ tr ->
  in_way dig s (elements (stored tr h)) k k' ->
  (∃ v, ma_Get api (Some h) k' w = Ret (v, true) w) /\
  ∀ g, ∃ w1 a ck, w_mem w1 !! a = Some (BKv zero ck) /\ w_usr w1 = w_usr w /\
    (∀ w2, g (At a) false w1 = Panic w2 -> ma_Mod api (Some h) k g w = Panic w2) /\
    ∀ v u x, x = k \/ x = k' -> let w2 := World (<[a := BKv v ck]> (w_mem w1)) (w_nxt w1) u in
      ma_Get api (Some h) x w2 = Panic w2 \/ ma_Get api (Some h) x w2 = Ret (zero, false) w2.
Proof.
  intros Hr Ho Hin Hway.
  destruct (prun_sim zero fuel u0 Hfuel api dig ok Ht) as (R & H1 & H2 & H3 & _ & H5).
  destruct (H1 _ _ Hr) as (σ & Hs & HR). split; [|intros g; by eapply H5].
  assert (Hk' : k' ∈ stored tr h) by (destruct Hway as [Hx _]; by apply elem_of_elements in Hx).
  apply (stored_holds dig zero u0 tr σ h k' Hs) in Hk'.
  pose proof (prun_stored zero fuel u0 api dig ok Ht _ _ _ _ _ Hr Hs Hk') as Hok'.
  destruct (H3 _ _ _ _ Hs HR Hok') as (res & w' & σ' & Hc & Hst & _ & Hrd). destruct (Hrd I) as [-> ->].
  destruct Hst as (_ & _ & ->). destruct Hk' as (s1 & m & Hm & [p Hp]).
  assert (is_Some (value σ h k')) as [v Hv].
  { unfold value. rewrite Hm. simpl. rewrite Hp. simpl. eapply mw_val; [by eapply mspec_wf|done|done]. }
  rewrite Hv in Hc. rewrite bool_decide_true in Hc by eauto. simpl in Hc. exists v.
  unfold bind in Hc. destruct (ma_Get api (Some h) k' w) as [[v1 b1] w1| | |]; try done.
  simpl in Hc. by injection Hc as -> -> ->.
Qed.

Theorem hindered_lost tr (w : world V CK U) h s k k' f :
  prun dig api ok u0 tr w -> ok tr (MMod h k f) -> (MNew s, RHandle h) ∈ tr ->
  in_way dig s (elements (stored tr h)) k k' ->
  (∃ v, ma_Get api (Some h) k' w = Ret (v, true) w) /\
  ∃ w', ma_Mod api (Some h) k (panic_cb f) w = Panic w' /\
    ∀ x, x = k \/ x = k' -> ma_Get api (Some h) x w' = Panic w' \/ ma_Get api (Some h) x w' = Ret (zero, false) w'.
Proof.
  intros Hr Ho Hin Hway. destruct (hindered _ _ _ _ _ _ _ Hr Ho Hin Hway) as [Hv Hg]. split; [done|].
  destruct (Hg (panic_cb f)) as (w1 & a & ck & Ha & Hu & Hp & Hlost).
  eexists. split; [apply Hp; by apply panic_cb_run|]. intros x Hx. by apply Hlost.
Qed.

Theorem hindered_read tr (w : world V CK U) h s k k' f :
  prun dig api ok u0 tr w -> ok tr (MMod h k f) -> (MNew s, RHandle h) ∈ tr ->
  in_way dig s (elements (stored tr h)) k k' ->
  (∃ v, ma_Get api (Some h) k' w = Ret (v, true) w) /\
  ∀ x (c : ptr -> bool -> V * bool -> M V CK U unit), x = k \/ x = k' ->
    (∀ p b w', ∃ w2, c p b (zero, false) w' = Panic w2) ->
    ∃ w', ma_Mod api (Some h) k (λ p b, bind (ma_Get api (Some h) x) (c p b)) w = Panic w'.
Proof.
  intros Hr Ho Hin Hway. destruct (hindered _ _ _ _ _ _ _ Hr Ho Hin Hway) as [Hv Hg]. split; [done|].
  intros x c Hx Hc. destruct (Hg (λ p b, bind (ma_Get api (Some h) x) (c p b))) as (w1 & a & ck & Ha & Hu & Hp & Hlost).
  specialize (Hlost zero (w_usr w1) x Hx). rewrite insert_id in Hlost by done. destruct w1 as [m1 n1 u1]. simpl in *.
  destruct Hlost as [E|E].
  - exists (World m1 n1 u1). apply Hp. unfold bind. by rewrite E.
  - destruct (Hc (At a) false (World m1 n1 u1)) as [w2 E2]. exists w2. apply Hp. unfold bind. by rewrite E.
Qed.
End panic.

(** ** Stale tmaps *)
Lemma hi_bit k r : (r < 16)%N -> Z.testbit k (32 + Z.of_N r) = true -> N.land (int_hi k) (bit_of r) ≠ 0%N.
Proof.
  intros Hr Hb E. assert (Ht : N.testbit (N.land (int_hi k) (bit_of r)) r = false) by (by rewrite E).
  rewrite N.land_spec, testbit_bit_of, bool_decide_true, andb_true_r in Ht by (done || lia).
  rewrite <- Z.testbit_of_N in Ht. unfold int_hi in Ht. rewrite Z2N.id in Ht by (apply Z.mod_pos_bound; lia).
  rewrite Z.mod_pow2_bits_low in Ht by lia. rewrite Z.shiftr_spec in Ht by lia.
  rewrite Z.add_comm in Ht. congruence.
Qed.

(** The key of a link with a tmap of 16 bits. *)
Lemma join_nonneg p t : (t < 65536)%N -> (0 <= int_join p t)%Z.
Proof.
  intros Ht. unfold int_join.
  assert (E : int64 (Z.shiftl (Z.of_N t) 32) = (Z.of_N t * 2 ^ 32)%Z).
  { unfold int64. rewrite Z.shiftl_mul_pow2 by lia. rewrite Z.mod_small by lia. lia. }
  rewrite E. apply Z.lor_nonneg; lia.
Qed.

Section int.
Context {V U : Type} (zero : V) (fuel : nat) (u0 : U) (sum64 : N -> bytes -> N) (Q : N -> Prop).
Hypothesis Hfuel : 256 <= fuel.
Local Notation dig := (int_digit sum64).

Lemma get_links (w : world V unit U) h k x a ls :
  lk_ptr x = At a -> w_mem w !! a = Some (BLinks ls) ->
  find (int_fam sum64) fuel (Some h) k w = bind (f_key (int_fam (V:=V) (U:=U) sum64) x) (λ k0, ret (if f_eq (int_fam (V:=V) (U:=U) sum64) k k0 then Some x else None)) w ->
  IntMap_Get sum64 zero fuel (Some h) k w = Fault \/ IntMap_Get sum64 zero fuel (Some h) k w = Ret (zero, false) w.
Proof.
  intros Hx Ha Hf. unfold IntMap_Get, get, ptr_of, bind. rewrite Hf. unfold bind. simpl.
  destruct (bool_decide _); simpl; [|by right]. left. rewrite Hx. simpl. unfold load_kv. by rewrite Ha.
Qed.

(** What Set, Mod (w' after the call) of a key leave behind. *)
Theorem intmap_stale tr (w : world V unit U) s h k k' :
  mrun (IntMap_api sum64 zero fuel) (λ tr op, mallowed is_int64 Q tr op /\ ins_guard dig (int_way sum64) (int_way sum64) tr op) u0 tr w ->
  (MNew s, RHandle h) ∈ tr -> is_int64 k -> in_way dig s (elements (stored tr h)) k k' ->
  separated 240 (dig s k) (dig s k') ->
  let e := S (depth dig s (elements (stored tr h)) k') in
  dig s k e = dig s k' e -> Z.testbit k' (32 + Z.of_N (dig s k e)) = true ->
  (∃ v, IntMap_Get sum64 zero fuel (Some h) k' w = Ret (v, true) w) /\
  ∀ op, (∃ v, op = MSet h k v) \/ (∃ f, op = MMod h k f) ->
  ∃ w', mcall (IntMap_api sum64 zero fuel) op w = Ret RUnit w' /\
    ∀ x, x = k \/ x = k' -> IntMap_Get sum64 zero fuel (Some h) x w' = Fault \/ IntMap_Get sum64 zero fuel (Some h) x w' = Ret (zero, false) w'.
Proof using Hfuel.
  intros Hr Hin Hki Hway Hsep e Hde Hbit. set (F := int_fam (V:=V) (U:=U) sum64). set (L := int_layout (V:=V) is_int64).
  assert (HL : laws F L).
  { constructor. intros k1 k2 _ _. simpl. rewrite bool_decide_eq_true. naive_solver. }
  assert (HF : fam_ok F L) by apply int_fam_ok.
  assert (Hdig : ∀ s k d, nib F s k d = dig s k d) by (intros; by apply (stream_nib sum64 intbytes)).
  assert (∃ σ, mspec dig zero u0 tr σ /\ Refine.Rel F L Q w σ) as (σ & Hs & HR).
  { eapply (Refine.run_rel F L Q HF HL eq_refl zero fuel Hfuel dig Hdig F F
      (set_op F) (mod_op F zero) (λ v, v) (int_way sum64) (int_way sum64)); try done; try (intros; reflexivity).
    - apply (stream_goodway sum64 intbytes); try done. intros s1 k1 ck p d [Hw|Hw]; [left|by right]. simpl. by apply small_hi.
    - apply (stream_goodway sum64 intbytes); try done. intros s1 k1 ck p d [Hw|Hw]; [left|by right]. simpl. by apply small_hi.
    - intros tr' op [Ho Hg]. split; [|done]. eapply allowed_impl; [|exact Ho]. intros k1 Hk1. by split. }
  destruct (mspec_new _ _ _ _ _ Hs _ _ Hin) as [m Hm].
  destruct (Refine.Rel_handle F L Q _ _ _ HR (ex_intro _ _ Hm)) as (G & s1 & T & HI & HGh & HQ & HG & Hmap & Hmh & Hv & Hu).
  rewrite Hm in Hmh. injection Hmh as <- ->.
  assert (Hel : elements (stored tr h) ≡ₚ map fst (leaves T)).
  { rewrite (stored_keys dig zero u0 tr σ h s _ Hs Hm).
    rewrite (Refine.dict_list F L eq_refl _ _ _ _ HG). by rewrite (Refine.ent_keys F L eq_refl _ _ _ _ HG). }
  assert (Hne : k' ≠ k) by (by destruct Hway as (_ & ? & _)).
  destruct (of_way F L fuel Hfuel dig Hdig s w h T k k' _ HG Hel Hway) as (q & cp & Hqin & Hq).
  destruct (way_of F L dig Hdig s w h T k q k' cp _ HG Hel Hqin Hq Hne) as (_ & Hd & Hlen).
  assert (Hlq : length q = e) by (unfold e; lia).
  assert (Habs : ∀ p, (k, p) ∉ leaves T).
  { intros p Hp. apply (stored_free dig s (elements (stored tr h)) k); [|by exists k'].
    rewrite Hel. apply elem_of_list_In, in_map_iff. exists (k, p). split; [done|]. by apply elem_of_list_In. }
  assert (Hwok : w_ok w) by (by eapply in_ok).
  assert (Hin' : (k', cp) ∈ leaves T).
  { rewrite <- (pleaves_leaves T []). apply elem_of_list_In, in_map_iff. exists (q, (k', cp)). split; [done|]. by apply elem_of_list_In. }
  assert (Hok' : ly_ok L k') by (by eapply Good_ok).
  split.
  - pose proof (Refine.ptr_spec F L Q HF HL eq_refl fuel Hfuel w G h s T k' HI HGh Hok') as Hp.
    destruct (Refine.get_spec F L eq_refl zero fuel w σ h s T k' HG Hm Hv Hp) as [Hget _].
    assert (is_Some (value σ h k')) as [v Hv'].
    { unfold value. rewrite Hm. simpl.
      destruct (Good_ok _ _ _ _ _ _ _ _ _ HG Hin') as [_ Hc]. unfold cell in Hc. simpl in Hc. destruct Hc as (a & v & -> & Ha).
      apply (Refine.dict_some F L eq_refl _ _ _ _ _ _ HG) in Hin'. rewrite Hin'. simpl. eapply mw_val; [by eapply mspec_wf|done|done]. }
    rewrite Hv' in Hget. exists v. exact Hget.
  - assert (Hsp : ∃ d, d <= 240 /\ nib F s k d ≠ nib F s k' d).
    { destruct Hsep as (d & Hd1 & Hd2). exists d. rewrite !Hdig. done. }
    assert (Hlt : length q - 1 < 240).
    { destruct Hway as (_ & _ & Hlt). pose proof (sep_common _ _ _ Hsep). lia. }
    assert (Hst : ∀ op, ∃ w1, quiet (λ l, l ∈ foot h T) w w1 /\
      ∀ p w2, io_split op w1 = Ret p w2 -> newcell L w1 w2 k p ->
      ∃ w' x2 a1 ls, insert F op fuel (Some h) k w = Ret tt w' /\
        lk_ptr x2 = At a1 /\ (lk_tmap x2 < 65536)%N /\ w_mem w' !! a1 = Some (BLinks ls) /\
        ∀ x, x = k \/ x = k' ->
          find F fuel (Some h) x w' = bind (f_key F x2) (λ k0, ret (if f_eq F x k0 then Some x2 else None)) w').
    { intros op. destruct (insert_stale F L 240 s HF HL (le_n 240) op w h T k fuel q k' cp HG Hwok) as (w1 & Hq1 & Hx); try done.
      - intros fu Hfu. apply (stream_conf_ok sum64 intbytes); done || lia.
      - rewrite !Hdig, Hlq. done.
      - rewrite Hdig, Hlq. change (lk_tmap (ly_leaf L k' cp)) with (int_hi k'). apply hi_bit; [|exact Hbit]. rewrite <- Hdig. apply nib_lt.
      - exists w1. split; [done|]. intros p w2 H1 H2. apply (Hx p w2 H1). apply newcell_made; [done|].
        pose proof (qu_nxt _ _ _ Hq1) as Hn1.
        intros l [Hl|Hl]; [|lia]. assert (l < w_nxt w)%positive by (eapply MapI_lt; [done|apply HG|done]). lia. }
    intros op [[v ->]|[f ->]].
    + destruct (Hst (set_op F k v)) as (w1 & Hq1 & Hx).
      assert (Hok1 : w_ok w1) by (by apply (qu_ok _ _ _ Hq1)).
      destruct (Hx _ _ (Refine.cellnew_run L v k w1) (newcell_ok L eq_refl w1 v k _ Hok1)) as (w' & x2 & a1 & ls & Hrun & Hp2 & _ & Hls & Hf).
      exists w'. split.
      * unfold mcall. simpl. unfold IntMap_Set. change (int_fam sum64) with F. rewrite (bind_Ret _ _ _ _ _ Hrun). done.
      * intros x Hx'. eapply get_links; [done|done|]. by apply Hf.
    + destruct (Hst (mod_op F zero k (mod_cb f))) as (w1 & Hq1 & Hx).
      assert (Hok1 : w_ok w1) by (by apply (qu_ok _ _ _ Hq1)).
      destruct (Hx _ _ (Refine.modnew_run L zero f k w1 Hok1) (newcell_ok L eq_refl w1 _ k _ Hok1)) as (w' & x2 & a1 & ls & Hrun & Hp2 & _ & Hls & Hf).
      exists w'. split.
      * unfold mcall. simpl. unfold IntMap_Mod. change (int_fam sum64) with F. rewrite (bind_Ret _ _ _ _ _ Hrun). done.
      * intros x Hx'. eapply get_links; [done|done|]. by apply Hf.
Qed.
End int.

Section intset.
Context {U : Type} (fuel : nat) (u0 : U) (sum64 : N -> bytes -> N) (Q : N -> Prop).
Hypothesis Hfuel : 256 <= fuel.
Local Notation dig := (int_digit sum64).

Theorem intset_stale tr (w : world unit unit U) s h k k' :
  srun (IntSet_api sum64 fuel) (λ tr op, sallowed is_int64 Q tr op /\ add_guard dig (int_way sum64) tr op) u0 tr w ->
  (SNew s, THandle h) ∈ tr -> is_int64 k -> in_way dig s (elements (sstored tr h)) k k' ->
  separated 240 (dig s k) (dig s k') ->
  let e := S (depth dig s (elements (sstored tr h)) k') in
  dig s k e = dig s k' e -> Z.testbit k' (32 + Z.of_N (dig s k e)) = true ->
  IntSet_Has sum64 fuel (Some h) k' w = Ret true w /\
  ∃ w', scall (IntSet_api sum64 fuel) (SAdd h k) w = Ret TUnit w' /\
    ∀ x, x = k \/ x = k' -> (x < 0)%Z -> IntSet_Has sum64 fuel (Some h) x w' = Ret false w'.
Proof using Hfuel.
  intros Hr Hin Hki Hway Hsep e Hde Hbit. set (F := intset_fam (V:=unit) (U:=U) sum64). set (L := intset_layout (V:=unit) is_int64).
  assert (HL : laws F L).
  { constructor. intros k1 k2 _ _. simpl. rewrite bool_decide_eq_true. naive_solver. }
  assert (HF : fam_ok F L) by apply intset_fam_ok.
  assert (Hdig : ∀ s k d, nib F s k d = dig s k d) by (intros; by apply (stream_nib sum64 intbytes)).
  assert (∃ σ, sspec dig u0 tr σ /\ RefineSet.Rel F L Q w σ) as (σ & Hs & HR).
  { eapply (RefineSet.run_rel F L Q HF HL fuel Hfuel dig Hdig F (add_op F tt) (int_way sum64) true tt); try done; try (intros; reflexivity).
    - apply (stream_goodway sum64 intbytes); try done. intros s1 k1 ck p d [Hw|Hw]; [left|by right]. simpl. by apply small_hi.
    - intros tr' op [Ho Hg]. split; [|destruct op; simpl in *; auto]. eapply sallowed_impl; [|exact Ho]. intros k1 Hk1. by split. }
  destruct (sspec_new dig u0 tr σ Hs s h Hin) as [X HX].
  destruct (RefineSet.Rel_handle F L Q _ _ _ HR (ex_intro _ _ HX)) as (G & s1 & T & HI & HGh & HQ & HG & Hmap & Hmh & Hu).
  rewrite HX in Hmh. injection Hmh as <- ->.
  destruct (sspec_stored dig u0 tr σ Hs _ _ _ HX) as [HXs _].
  assert (Hel : elements (sstored tr h) ≡ₚ map fst (leaves T)).
  { rewrite <- HXs. by eapply RefineSet.keys_list. }
  assert (Hne : k' ≠ k) by (by destruct Hway as (_ & ? & _)).
  destruct (of_way F L fuel Hfuel dig Hdig s w h T k k' _ HG Hel Hway) as (q & cp & Hqin & Hq).
  destruct (way_of F L dig Hdig s w h T k q k' cp _ HG Hel Hqin Hq Hne) as (_ & Hd & Hlen).
  assert (Hlq : length q = e) by (unfold e; lia).
  assert (Habs : ∀ p, (k, p) ∉ leaves T).
  { intros p Hp. apply (stored_free dig s (elements (sstored tr h)) k); [|by exists k'].
    rewrite Hel. apply elem_of_list_In, in_map_iff. exists (k, p). split; [done|]. by apply elem_of_list_In. }
  assert (Hwok : w_ok w) by (by eapply in_ok).
  assert (Hin' : (k', cp) ∈ leaves T).
  { rewrite <- (pleaves_leaves T []). apply elem_of_list_In, in_map_iff. exists (q, (k', cp)). split; [done|]. by apply elem_of_list_In. }
  assert (Hok' : ly_ok L k') by (by eapply Good_ok).
  split.
  - unfold IntSet_Has, has.
    destruct (find_spec F L HF 240 s (le_n 240) HL w h T k' fuel HG Hok' Hfuel) as [(p & _ & Hf)|[Hn _]]; [|by apply Hn in Hin'].
    rewrite (bind_Ret _ _ _ _ _ Hf). done.
  - assert (Hlt : length q - 1 < 240).
    { destruct Hway as (_ & _ & Hlt). pose proof (sep_common _ _ _ Hsep). lia. }
    destruct (insert_stale F L 240 s HF HL (le_n 240) (add_op F tt k) w h T k fuel q k' cp HG Hwok) as (w1 & Hq1 & Hx); try done.
    + intros fu Hfu. apply (stream_conf_ok sum64 intbytes); done || lia.
    + destruct Hsep as (d & Hd1 & Hd2). exists d. rewrite !Hdig. done.
    + rewrite !Hdig, Hlq. done.
    + rewrite Hdig, Hlq. change (lk_tmap (ly_leaf L k' cp)) with (int_hi k'). apply hi_bit; [|exact Hbit]. rewrite <- Hdig. apply nib_lt.
    + destruct (Hx Nil w1 eq_refl) as (w' & x2 & a1 & ls & Hrun & Hp2 & Ht2 & Hls & Hf).
      { apply newcell_made.
        - assert (Hok1 : w_ok w1) by (by apply (qu_ok _ _ _ Hq1)).
          split_and!; [done|lia|intros l _; by apply keep_same|done|]. intros l Hl. by apply elem_of_nil in Hl.
        - pose proof (qu_nxt _ _ _ Hq1) as Hn1.
          intros l [Hl|Hl]; [|lia]. assert (l < w_nxt w)%positive by (eapply MapI_lt; [done|apply HG|done]). lia. }
      exists w'. split.
      { unfold scall. simpl. unfold IntSet_Add. change (intset_fam sum64) with F. rewrite (bind_Ret _ _ _ _ _ Hrun). done. }
      intros x Hx' Hneg. unfold IntSet_Has, has, bind. change (intset_fam sum64) with F. rewrite (Hf x Hx').
      unfold bind. simpl. rewrite bool_decide_false; [done|]. intros E. pose proof (join_nonneg (lk_pmap x2) _ Ht2). lia.
Qed.
End intset.
