(** The allocations of the calls of a run. *)
From stdpp Require Import base numbers list gmap.
From Verif Require Import GoInt Mem Hash Amt Families BitsFacts Steps Tree Rep Paths Descend Insert Split Delete Remove Core Spec Order Heap SpecFacts Guards Client Types Refine RefineSet Pack Levels Shape ShapeRuns DepthSpec Depth MemorySpec Memory MemoryRuns Alloc AllocSpec.
Local Open Scope nat_scope.

(** ** Calls that never allocate, or once *)
Section steps.
Context {K V CK U : Type}.

Lemma kv_key_allocs iv : allocs 0 (kv_key (K:=K) (V:=V) (U:=U) iv).
Proof. unfold kv_key. grows. Qed.
Lemma int_key_allocs iv : allocs 0 (int_key (V:=V) (U:=U) iv).
Proof. unfold int_key. grows. Qed.
Lemma New_allocs s : allocs (V:=V) (CK:=CK) (U:=U) 2 (New s).
Proof.
  unfold New, new_root. apply (allocs_bind _ 2 0); [lia| |intros; grows].
  apply (allocs_bind _ 1 1); [lia|apply allocs_alloc|]. intros. apply allocs_alloc.
Qed.
Lemma mod_cb_allocs f p b : allocs 0 (mod_cb (V:=V) (CK:=CK) (U:=U) f p b).
Proof. unfold mod_cb. grows. Qed.
Lemma all_cb_allocs f k p : allocs 0 (all_cb (K:=K) (V:=V) (CK:=CK) (U:=U) f k p).
Proof. unfold all_cb. grows. Qed.
Lemma set_cb_allocs f k : allocs 0 (set_cb (K:=K) (V:=V) (CK:=CK) (U:=U) f k).
Proof. unfold set_cb. grows. Qed.
Lemma Len_allocs oh : allocs 0 (Len (V:=V) (CK:=CK) (U:=U) oh).
Proof. unfold Len, root_len. destruct oh; grows. Qed.
Lemma Dep_allocs oh : allocs 0 (Dep (V:=V) (CK:=CK) (U:=U) oh).
Proof. unfold Dep, root_dep. destruct oh; [|grows]. apply allocs_step; [grows|]. intros rt. destruct (_ =? _)%N; grows. Qed.

End steps.

Section plain.
Context {K V CK U : Type} (zero : V) (fuel : nat).
Definition mplain (op : mop K V U) : nat :=
  match op with MNew _ => 2 | MDel _ _ => 1 | _ => 0 end.
Lemma mcall_plain (api : mapapi K V CK U) op : any_map zero fuel api ->
  match op with MSet _ _ _ | MMod _ _ _ => False | _ => True end -> allocs (mplain op) (mcall api op).
Proof.
  intros Ha Hp. destruct op as [s|h k v|h k f|h k|h k|h k|h k|h|h|h f|p|p v]; try done; cbn [mcall mplain].
  - apply allocs_last; [apply New_allocs|]. intros [h|]; cbn [handle]; [grows|]. apply allocs_step; [grows|]. intros. grows.
  - apply allocs_last; [|intros; grows]. destruct Ha; apply allocs_delete_gen; first [exact kv_key_allocs|exact int_key_allocs].
  - apply allocs_step; [|intros; grows]. destruct Ha; apply allocs_get; first [exact kv_key_allocs|exact int_key_allocs].
  - apply allocs_step; [|intros; grows]. destruct Ha; apply allocs_val; first [exact kv_key_allocs|exact int_key_allocs].
  - apply allocs_step; [|intros; grows]. destruct Ha; apply allocs_ptr; first [exact kv_key_allocs|exact int_key_allocs].
  - apply allocs_step; [apply Len_allocs|intros; grows].
  - apply allocs_step; [apply Dep_allocs|intros; grows].
  - apply allocs_step; [|intros; grows]. destruct Ha; apply allocs_all_map; first [exact kv_key_allocs|exact int_key_allocs|apply all_cb_allocs].
  - grows.
  - grows.
Qed.
Definition splain (op : sop K U) : nat :=
  match op with SNew _ => 2 | SDel _ _ => 1 | _ => 0 end.
Lemma scall_plain b (api : setapi K unit CK U) op : any_set fuel b api ->
  match op with SAdd _ _ => False | _ => True end -> allocs (splain op) (scall api op).
Proof.
  intros Ha Hp. destruct op as [s|h k|h k|h k|h|h|h f]; try done; cbn [scall splain].
  - apply allocs_last; [apply New_allocs|]. intros [h|]; cbn [handle]; [grows|]. apply allocs_step; [grows|]. intros. grows.
  - apply allocs_last; [|intros; grows]. destruct Ha; apply allocs_delete_gen; first [exact kv_key_allocs|exact int_key_allocs].
  - apply allocs_step; [|intros; grows]. destruct Ha; apply allocs_has; first [exact kv_key_allocs|exact int_key_allocs].
  - apply allocs_step; [apply Len_allocs|intros; grows].
  - apply allocs_step; [apply Dep_allocs|intros; grows].
  - apply allocs_step; [|intros; grows]. destruct Ha; apply allocs_all_set; first [exact kv_key_allocs|exact int_key_allocs|apply set_cb_allocs].
Qed.
End plain.

(** ** Insertions *)
Section insert.
Context {K HS V CK U : Type} `{Countable K}.
Variables (F F' : fam K HS V CK U) (L : layout K V CK) (dig : N -> K -> nat -> N).
Hypothesis Hdig : ∀ s k d, nib F s k d = dig s k d.
Hypothesis HF' : Refine.alike F L F'.
Implicit Types (w : world V CK U).

Lemma Good_alike s w h T : Good F L 240 s w h T -> Good F' L 240 s w h T.
Proof.
  intros [HM Hp]. split; [done|]. destruct HF' as (_ & Hnib & _).
  unfold placed in *. eapply Forall_impl; [exact Hp|]. intros [q [k p]]. unfold well. cbn [fst snd].
  intros E. rewrite E at 1. unfold nibs. apply map_ext. intros. by rewrite Hnib.
Qed.

Lemma new_allocs op s w h T ks k fuel w' : Good F L 240 s w h T -> map fst (leaves T) ≡ₚ ks -> ly_ok L k -> 256 <= fuel ->
  clear F' L 240 s T k -> k ∉ ks -> allocs 1 (io_new op) -> allocs 1 (io_split op) ->
  insert F' op fuel (Some h) k w = Ret tt w' -> size (w_mem w') <= new_key dig s ks k + size (w_mem w).
Proof.
  intros HG Hp Hok Hf Hre Hk Hn Hs E. destruct HF' as (HFok & Hnib & HL').
  assert (Habs : ∀ p, (k, p) ∉ leaves T).
  { intros p Hin. apply Hk. rewrite <- Hp. apply elem_of_list_fmap. exists (k, p). done. }
  destruct (insert_allocs F' L s HFok HL' dig ltac:(intros; rewrite Hnib; apply Hdig) op 1 w h T k fuel w'
    (Good_alike _ _ _ _ HG) Hok Hf Hre Habs Hn Hs E) as (x & H1 & _ & H3).
  rewrite (branches_perm dig s (k :: map fst (leaves T)) (k :: ks)), (branches_perm dig s (map fst (leaves T)) ks) in H3
    by (by rewrite ?Hp). rewrite (depth_perm dig s _ _ k Hp) in H1. unfold new_key.
  destruct (depth dig s ks k =? 0); lia.
Qed.
End insert.

(** Adding a key to ks adds at most as many strings as the key has digits in
    common with one of ks. *)
Lemma branches_new `{Countable K} (dig : N -> K -> nat -> N) s ks k : k ∉ ks ->
  branches dig s (k :: ks) - branches dig s ks <= depth dig s ks k.
Proof.
  intros Hk. assert (branches dig s (k :: ks) <= branches dig s ks + depth dig s ks k); [|lia].
  rewrite <- !strings_length.
  replace (depth dig s ks k) with (length (map (λ i, start dig s i k) (seq 1 (depth dig s ks k)))) by (by rewrite map_length, seq_length).
  rewrite <- app_length. apply submseteq_length, NoDup_submseteq; [apply strings_nodup|].
  intros q Hq. apply elem_of_strings in Hq as (Hne & k1 & Hk1 & Hd & Hq). apply elem_of_app.
  assert (Hpos : 1 <= length q) by (destruct q; [done|simpl; lia]).
  assert (Hstart : length q <= depth dig s ks k -> q = start dig s (length q) k -> q ∈ map (λ i, start dig s i k) (seq 1 (depth dig s ks k))).
  { intros Hle E. apply elem_of_list_fmap. exists (length q). split; [done|]. apply elem_of_list_In, in_seq. lia. }
  assert (Hdk : ∀ k', k' ∈ ks -> common 241 (dig s k) (dig s k') <= depth dig s ks k).
  { intros k' Hk'. apply (proj1 (depth_le dig s ks k _) (le_n _)); [done|]. by intros ->. }
  apply elem_of_cons in Hk1 as [->|Hk1].
  - right. apply Hstart; [|done]. etransitivity; [exact Hd|]. apply depth_le. intros k' [->|Hk']%elem_of_cons Hn; [done|by apply Hdk].
  - destruct (decide (length q <= depth dig s ks k1)) as [Hle|Hgt].
    + left. apply elem_of_strings. split; [done|]. by exists k1.
    + right. assert (Hc : length q <= common 241 (dig s k1) (dig s k)).
      { destruct (decide (length q <= common 241 (dig s k1) (dig s k))) as [|Hn]; [done|]. exfalso.
        assert (depth dig s (k :: ks) k1 <= length q - 1); [|lia].
        apply depth_le. intros k' [->|Hk']%elem_of_cons Hne'; [lia|].
        pose proof (proj1 (depth_le dig s ks k1 _) (le_n _) k' Hk' Hne'). lia. }
      assert (Hag : ∀ i, i < length q -> dig s k1 i = dig s k i).
      { intros i Hi. destruct (common_spec 241 (dig s k1) (dig s k)) as (_ & H2 & _). apply H2. lia. }
      apply Hstart.
      * etransitivity; [|exact (Hdk k1 Hk1)]. apply common_ge; [|intros i Hi; symmetry; by apply Hag].
        destruct (common_spec 241 (dig s k1) (dig s k)) as (H1 & _). lia.
      * rewrite Hq at 1. unfold start. apply map_ext_in. intros i Hi%in_seq. apply Hag. lia.
Qed.
Lemma new_key_depth `{Countable K} (dig : N -> K -> nat -> N) s ks k : k ∉ ks -> new_key dig s ks k <= 1 + depth dig s ks k.
Proof. intros Hk. unfold new_key. pose proof (branches_new dig s ks k Hk). destruct (Nat.eqb_spec (depth dig s ks k) 0); lia. Qed.
Lemma new_key_total `{Countable K} (dig : N -> K -> nat -> N) s ks k :
  new_key dig s ks k + branches dig s ks <= 2 + branches dig s (k :: ks).
Proof.
  unfold new_key. assert (branches dig s ks <= branches dig s (k :: ks)); [|destruct (depth dig s ks k =? 0); lia].
  rewrite <- !strings_length. apply submseteq_length, NoDup_submseteq; [apply strings_nodup|].
  intros q Hq. apply elem_of_strings. apply elem_of_strings in Hq as (Hq & k1 & Hk1 & Hd1 & Hs1).
  split; [done|]. exists k1. split; [by right|]. split; [|done].
  etransitivity; [exact Hd1|]. apply depth_le. intros k2 Hk2 Hn2.
  pose proof (proj1 (depth_le dig s (k :: ks) k1 _) (le_n _)) as Hx. apply Hx; [by right|done].
Qed.

(** ** Maps *)
Section maps.
Context {V U : Type} (zero : V) (fuel : nat) (u0 : U).
Hypothesis Hfuel : 256 <= fuel.
Context `{Countable K} {CK : Type} (api : mapapi K V CK U) (dig : N -> K -> nat -> N).
Variable ok : list (mop K V U * mres V) -> mop K V U -> Prop.
Hypothesis Ht : map_type zero fuel api dig ok.

Lemma cellnew_allocs (L : layout K V CK) v k : allocs (U:=U) 1 (cellnew L v k).
Proof. unfold cellnew. apply allocs_last; [apply allocs_alloc|]. intros. grows. Qed.
Lemma modnew_allocs (L : layout K V CK) k f : (∀ p b, allocs (U:=U) 0 (f p b)) -> allocs 1 (modnew L zero k f).
Proof.
  intros Hf. unfold modnew. apply allocs_last; [apply cellnew_allocs|]. intros p. apply allocs_step; [apply Hf|]. intros. grows.
Qed.

Theorem map_allocs tr (w : world V CK U) op res w' : mrun api ok u0 tr w -> ok tr op -> mcall api op w = Ret res w' ->
  ∃ n, mbudget dig tr op n /\ size (w_mem w') <= n + size (w_mem w).
Proof.
  intros Hr Ho Hc. destruct (map_pack zero fuel api dig ok Ht) as [].
  destruct (Refine.run_rel F L Q HF HL Hcell zero fuel Hfuel dig Hdig FS FM sop mdop vs WS WM HFS HFM HWS HWM Hvs Hsop Hmop
    api HSet HMod HDel HGet HVal HPtr HAll ok u0 Hok tr w Hr) as (σ & Hsp & HR).
  destruct (Hok _ _ Ho) as [Hal Hgu].
  assert (Hcan : Refine.can L Q dig WS WM σ op) by (by eapply (Refine.allowed_can L Q zero dig WS WM u0)).
  assert (Hplain : match op with MSet _ _ _ | MMod _ _ _ => False | _ => True end -> size (w_mem w') <= mplain op + size (w_mem w)).
  { intros Hp. exact (mcall_plain zero fuel api op (map_any zero fuel api dig ok Ht) Hp w res w' Hc). }
  assert (Hstep : ∀ h k, is_Some (ms_map σ !! h) -> ly_ok L k ->
    ∃ G s T, Inv F L 240 Q w G /\ G !! h = Some (s, T) /\ Good F L 240 s w h T /\ ms_map σ !! h = Some (s, dict T) /\
      map fst (leaves T) ≡ₚ elements (stored tr h) /\ (MNew s, RHandle h) ∈ tr).
  { intros h k Hlive Hlk. destruct (Refine.Rel_handle F L Q w σ h HR Hlive) as (G & s & T & HI & HGh & HQ & HG & Hm & Hmh & Hv & Hu).
    exists G, s, T. split_and!; try done.
    - rewrite (stored_keys dig zero u0 tr σ h s _ Hsp Hmh).
      rewrite (Refine.dict_list F L Hcell _ _ _ _ HG). by rewrite (Refine.ent_keys F L Hcell _ _ _ _ HG).
    - by eapply (mspec_seed dig zero u0 tr σ Hsp). }
  assert (Hins : ∀ F' W io h k, Refine.alike F L F' -> goodway L dig F' W -> is_Some (ms_map σ !! h) -> ly_ok L k -> Refine.fits dig W σ h k ->
    (∀ iv, allocs 0 (io_found io iv)) -> allocs 1 (io_new io) -> allocs 1 (io_split io) ->
    insert F' io fuel (Some h) k w = Ret tt w' ->
    ∃ n, ((k ∈ stored tr h /\ n = 0) \/
      (k ∉ stored tr h /\ ∃ s, (MNew s, RHandle h) ∈ tr /\ n = new_key dig s (elements (stored tr h)) k)) /\
      size (w_mem w') <= n + size (w_mem w)).
  { intros F' W io h k HF' HW Hlive Hlk Hfits Hfound Hnew Hsplit Hrun.
    destruct (Hstep h k Hlive Hlk) as (G & s & T & HI & HGh & HG & Hmh & Hperm & Hin).
    assert (Hks : (map_to_list (dict T)).*1 ≡ₚ map fst (leaves T)).
    { rewrite (Refine.dict_list F L Hcell _ _ _ _ HG). by rewrite (Refine.ent_keys F L Hcell _ _ _ _ HG). }
    assert (Hfree : (∀ p, (k, p) ∉ leaves T) -> free dig W s (map_to_list (dict T)).*1 k).
    { intros Habs. destruct Hfits as (s' & m & Hm' & Hx). rewrite Hmh in Hm'. injection Hm' as <- <-.
      destruct Hx as [[a Ha]|Hx]; [|done]. apply (Refine.dict_some F L Hcell _ _ _ _ _ _ HG) in Ha. by apply Habs in Ha. }
    pose proof (Refine.way_clear F L dig Hdig F' W s w h T k _ HF' HW Hlk HG Hks Hfree) as Hre.
    pose proof HF' as (HFok & Hnib & HL').
    destruct (decide (k ∈ stored tr h)) as [Hst|Hst].
    - exists 0. split; [by left|].
      destruct (Inv_insert F L 240 Q (le_n _) F' io w G h s T k fuel HFok (Hnib s) HL' HI HGh Hlk Hfuel Hre)
        as [(p & Hkp & E)|(Habs & _)].
      + rewrite Hrun in E. symmetry in E. exact (Hfound _ _ _ _ E).
      + exfalso. assert (Hx : k ∈ map fst (leaves T)) by (rewrite Hperm; by apply elem_of_elements).
        apply elem_of_list_fmap in Hx as ([k' p] & -> & Hx). by apply Habs in Hx.
    - exists (new_key dig s (elements (stored tr h)) k). split; [right; eauto|].
      eapply (new_allocs F F' L dig Hdig HF' io s w h T); try done. intros Hx. apply Hst. by apply elem_of_elements. }
  destruct op as [s|h k v|h k f|h k|h k|h k|h k|h|h|h f|p|p v]; cbn [mbudget]; simpl in Hcan;
    try (exists 0; split; [done|exact (Hplain I)]).
  - exists 2. split; [done|exact (Hplain I)].
  - destruct Hcan as (Hlive & Hlk & Hfits). revert Hc. cbn [mcall]. rewrite HSet. unfold bind.
    destruct (insert FS (sop k v) fuel (Some h) k w) as [[] w1| | |] eqn:E; intros Hc; try discriminate Hc.
    injection Hc as _ ->. destruct (Hsop k v) as (H1 & H2 & H3).
    eapply (Hins FS WS (sop k v)); try done; rewrite ?H1, ?H2, ?H3; try apply cellnew_allocs. intros iv. grows.
  - destruct Hcan as (Hlive & Hlk & Hfits). revert Hc. cbn [mcall]. rewrite HMod. unfold bind.
    destruct (insert FM (mdop k (mod_cb f)) fuel (Some h) k w) as [[] w1| | |] eqn:E; intros Hc; try discriminate Hc.
    injection Hc as _ ->. destruct (Hmop k (mod_cb f)) as (H1 & H2 & H3).
    eapply (Hins FM WM (mdop k (mod_cb f))); try done; rewrite ?H1, ?H2, ?H3; try (apply modnew_allocs; apply mod_cb_allocs).
    intros iv. destruct (lk_ptr iv); [grows|apply mod_cb_allocs].
  - destruct Hcan as (Hlive & Hlk). destruct (Hstep h k Hlive Hlk) as (G & s & T & HI & HGh & HG & Hmh & Hperm & Hin).
    destruct (Inv_delete F L 240 Q HF (le_n _) HL w G h s T k fuel HI HGh Hlk Hfuel)
      as [(p & q & w1 & T' & Hkp & _)|(Habs & w1 & Hrun & _ & Hsb & _)].
    + exists 1. split; [left|exact (Hplain I)]. split; [|done]. apply elem_of_elements. rewrite <- Hperm.
      apply elem_of_list_fmap. exists (k, p). done.
    + exists 0. split.
      * right. split; [|done]. intros Hx. apply elem_of_elements in Hx. rewrite <- Hperm in Hx.
        apply elem_of_list_fmap in Hx as ([k' p] & -> & Hx). by apply Habs in Hx.
      * revert Hc. cbn [mcall]. rewrite HDel, (bind_Ret _ _ _ _ _ Hrun). intros [= _ <-].
        destruct Hsb as (rt & pth & Hrt & _ & ->). simpl. rewrite (size_over _ _ _ _ Hrt). lia.
Qed.

(** Filling one container. *)
Theorem map_fill tr (w : world V CK U) s h : mrun api ok u0 (tr ++ [(MNew s, RHandle h)]) w -> Forall (λ x, fills x.1) tr ->
  let ks := elements (stored tr h) in size (w_mem w) <= 2 + 2 * length ks + branches dig s ks.
Proof.
  intros Hr Hf. revert w Hr. induction tr as [|[op res] tr IH]; intros w Hr ks.
  - unfold ks. simpl in *. inversion Hr as [|? w0 ? ? ? Hr0 Ho Hc]; subst. inversion Hr0; subst.
    destruct (map_allocs _ _ _ _ _ Hr0 Ho Hc) as (n & -> & Hn). simpl in Hn. rewrite map_size_empty in Hn. lia.
  - apply Forall_cons in Hf as [Hfop Hf]. simpl in Hr. inversion Hr as [|? w0 ? ? ? Hr0 Ho Hc]; subst.
    specialize (IH Hf w0 Hr0). cbv zeta in IH.
    destruct (map_allocs _ _ _ _ _ Hr0 Ho Hc) as (n & Hb & Hn).
    assert (Hst0 : ∀ h', stored (tr ++ [(MNew s, RHandle h)]) h' = stored tr h').
    { intros h'. clear. induction tr as [|[op res] tr IH]; [done|]. cbn [app stored]. by rewrite IH. }
    assert (Honly : ∀ s' h', (MNew s', RHandle h') ∈ tr ++ [(MNew s, RHandle h)] -> s' = s /\ h' = h).
    { intros s' h' [Hin|Hin]%elem_of_app.
      - rewrite Forall_forall in Hf. by apply Hf in Hin.
      - apply elem_of_list_singleton in Hin. by injection Hin. }
    assert (Hput : ∀ h' k, (k ∈ stored tr h' /\ n = 0) \/
        (k ∉ stored tr h' /\ ∃ s', (MNew s', RHandle h') ∈ tr ++ [(MNew s, RHandle h)] /\ n = new_key dig s' (elements (stored tr h')) k) ->
        stored ((op, res) :: tr) h = (if Pos.eqb h' h then {[k]} ∪ stored tr h else stored tr h) ->
        size (w_mem w) <= 2 + 2 * length ks + branches dig s ks).
    { intros h' k Hcase E. unfold ks. rewrite E. destruct Hcase as [[Hk ->]|(Hk & s' & Hin & ->)].
      - assert ((if Pos.eqb h' h then {[k]} ∪ stored tr h else stored tr h) = stored tr h) as ->.
        { destruct (Pos.eqb_spec h' h) as [->|]; [|done]. apply subseteq_union_1_L. by apply singleton_subseteq_l. }
        lia.
      - apply Honly in Hin as [-> ->]. rewrite Pos.eqb_refl.
        pose proof (elements_union_singleton (stored tr h) k Hk) as Hp.
        rewrite (branches_perm dig s _ _ Hp), Hp. pose proof (new_key_total dig s (elements (stored tr h)) k). simpl. lia. }
    assert (Hsame : n = 0 -> stored ((op, res) :: tr) h = stored tr h -> size (w_mem w) <= 2 + 2 * length ks + branches dig s ks).
    { intros -> E. unfold ks. rewrite E. lia. }
    destruct op as [s1|h1 k v|h1 k f|h1 k|h1 k|h1 k|h1 k|h1|h1|h1 f|p|p v]; cbn [fills fst mbudget] in *; try done;
      try (apply Hsame; [exact Hb|reflexivity]).
    + apply (Hput h1 k); [|reflexivity]. by rewrite !Hst0 in Hb.
    + apply (Hput h1 k); [|reflexivity]. by rewrite !Hst0 in Hb.
Qed.
End maps.

(** ** Sets *)
Section sets.
Context {U : Type} (fuel : nat) (u0 : U).
Hypothesis Hfuel : 256 <= fuel.
Context `{Countable K} {CK : Type} (api : setapi K unit CK U) (dig : N -> K -> nat -> N).
Variable ok : list (sop K U * sres) -> sop K U -> Prop.
Hypothesis Ht : set_type fuel api dig ok.

Lemma setcell_allocs (L : layout K unit CK) k : allocs (U:=U) 1 (setcell L tt k).
Proof. unfold setcell. destruct (ly_cell L); [apply cellnew_allocs|grows]. Qed.

Theorem set_allocs tr (w : world unit CK U) op res w' : srun api ok u0 tr w -> ok tr op -> scall api op w = Ret res w' ->
  ∃ n, sbudget dig tr op n /\ size (w_mem w') <= n + size (w_mem w).
Proof.
  intros Hr Ho Hc. destruct (set_pack fuel api dig ok Ht) as [].
  destruct (RefineSet.run_rel F L Q HF HL fuel Hfuel dig Hdig FA aop W dfull tt HFA HW Haop api HAdd HDel HHas HAll ok u0 Hok tr w Hr)
    as (σ & Hsp & HR).
  destruct (Hok _ _ Ho) as [Hal Hgu].
  assert (Hcan : RefineSet.can L Q dig W dfull σ op) by (by eapply (RefineSet.allowed_can L Q dig W dfull u0)).
  assert (Hplain : match op with SAdd _ _ => False | _ => True end -> size (w_mem w') <= splain op + size (w_mem w)).
  { intros Hp. destruct (set_any fuel api dig ok Ht) as [b Hany]. exact (scall_plain fuel b api op Hany Hp w res w' Hc). }
  assert (Hstep : ∀ h, is_Some (ss_set σ !! h) ->
    ∃ G s T, Inv F L 240 Q w G /\ G !! h = Some (s, T) /\ Good F L 240 s w h T /\ ss_set σ !! h = Some (s, RefineSet.keys T) /\
      map fst (leaves T) ≡ₚ elements (sstored tr h) /\ (SNew s, THandle h) ∈ tr).
  { intros h Hlive. destruct (RefineSet.Rel_handle F L Q w σ h HR Hlive) as (G & s & T & HI & HGh & HQ & HG & Hm & Hmh & Hu).
    destruct (sspec_stored dig u0 tr σ Hsp h s _ Hmh) as [HX Hin].
    exists G, s, T. split_and!; try done. rewrite <- HX. symmetry. exact (RefineSet.keys_list F L _ _ _ _ HG). }
  destruct op as [s|h k|h k|h k|h|h|h f]; cbn [sbudget]; simpl in Hcan;
    try (exists 0; split; [done|exact (Hplain I)]).
  - exists 2. split; [done|exact (Hplain I)].
  - destruct Hcan as (Hlive & Hlk & Hfits). revert Hc. cbn [scall]. rewrite HAdd. unfold bind.
    destruct (insert FA (aop k) fuel (Some h) k w) as [[] w1| | |] eqn:Hrun; intros Hc; try discriminate Hc.
    injection Hc as _ ->. destruct (Haop k) as (H1 & H2 & H3).
    destruct (Hstep h Hlive) as (G & s & T & HI & HGh & HG & Hmh & Hperm & Hin).
    assert (Hre : clear FA L 240 s T k).
    { eapply (Refine.way_clear F L dig Hdig FA W s w h T k _ HFA HW Hlk HG (RefineSet.keys_list F L _ _ _ _ HG)).
      intros Habs. destruct Hfits as (s' & X & HX & Hx). rewrite Hmh in HX. injection HX as <- <-.
      destruct Hx as [Hx|Hx]; [|done]. apply RefineSet.keys_in in Hx as [p Hx]. by apply Habs in Hx. }
    pose proof HFA as (HFok & Hnib & HL').
    destruct (decide (k ∈ sstored tr h)) as [Hst|Hst].
    + exists 0. split; [by left|].
      destruct (Inv_insert F L 240 Q (le_n _) FA (aop k) w G h s T k fuel HFok (Hnib s) HL' HI HGh Hlk Hfuel Hre)
        as [(p & Hkp & E)|(Habs & _)].
      * rewrite Hrun, H1 in E. injection E as ->. lia.
      * exfalso. assert (Hx : k ∈ map fst (leaves T)) by (rewrite Hperm; by apply elem_of_elements).
        apply elem_of_list_fmap in Hx as ([k' p] & -> & Hx). by apply Habs in Hx.
    + exists (new_key dig s (elements (sstored tr h)) k). split; [right; eauto|].
      eapply (new_allocs F FA L dig Hdig HFA (aop k) s w h T); try done; rewrite ?H2, ?H3; try apply setcell_allocs.
      intros Hx. apply Hst. by apply elem_of_elements.
  - destruct Hcan as (Hlive & Hlk & Hdf). destruct (Hstep h Hlive) as (G & s & T & HI & HGh & HG & Hmh & Hperm & Hin).
    destruct (Inv_delete F L 240 Q HF (le_n _) HL w G h s T k fuel HI HGh Hlk Hfuel)
      as [(p & q & w1 & T' & Hkp & _)|(Habs & w1 & Hrun & _ & Hsb & _)].
    + exists 1. split; [left|exact (Hplain I)]. split; [|done]. apply elem_of_elements. rewrite <- Hperm.
      apply elem_of_list_fmap. exists (k, p). done.
    + exists 0. split.
      * right. split; [|done]. intros Hx. apply elem_of_elements in Hx. rewrite <- Hperm in Hx.
        apply elem_of_list_fmap in Hx as ([k' p] & -> & Hx). by apply Habs in Hx.
      * revert Hc. cbn [scall]. rewrite (HDel Hdf), (bind_Ret _ _ _ _ _ Hrun). intros [= _ <-].
        destruct Hsb as (rt & pth & Hrt & _ & ->). simpl. rewrite (size_over _ _ _ _ Hrt). lia.
Qed.

Theorem set_fill tr (w : world unit CK U) s h : srun api ok u0 (tr ++ [(SNew s, THandle h)]) w -> Forall (λ x, sfills x.1) tr ->
  let ks := elements (sstored tr h) in size (w_mem w) <= 2 + 2 * length ks + branches dig s ks.
Proof.
  intros Hr Hf. revert w Hr. induction tr as [|[op res] tr IH]; intros w Hr ks.
  - unfold ks. simpl in *. inversion Hr as [|? w0 ? ? ? Hr0 Ho Hc]; subst. inversion Hr0; subst.
    destruct (set_allocs _ _ _ _ _ Hr0 Ho Hc) as (n & -> & Hn). simpl in Hn. rewrite map_size_empty in Hn. lia.
  - apply Forall_cons in Hf as [Hfop Hf]. simpl in Hr. inversion Hr as [|? w0 ? ? ? Hr0 Ho Hc]; subst.
    specialize (IH Hf w0 Hr0). cbv zeta in IH.
    destruct (set_allocs _ _ _ _ _ Hr0 Ho Hc) as (n & Hb & Hn).
    assert (Hst0 : ∀ h', sstored (tr ++ [(SNew s, THandle h)]) h' = sstored tr h').
    { intros h'. clear. induction tr as [|[op res] tr IH]; [done|]. cbn [app sstored]. by rewrite IH. }
    assert (Honly : ∀ s' h', (SNew s', THandle h') ∈ tr ++ [(SNew s, THandle h)] -> s' = s /\ h' = h).
    { intros s' h' [Hin|Hin]%elem_of_app.
      - rewrite Forall_forall in Hf. by apply Hf in Hin.
      - apply elem_of_list_singleton in Hin. by injection Hin. }
    assert (Hsame : n = 0 -> sstored ((op, res) :: tr) h = sstored tr h -> size (w_mem w) <= 2 + 2 * length ks + branches dig s ks).
    { intros -> E. unfold ks. rewrite E. lia. }
    destruct op as [s1|h1 k|h1 k|h1 k|h1|h1|h1 f]; cbn [sfills fst sbudget] in *; try done;
      try (apply Hsame; [exact Hb|reflexivity]).
    rewrite !Hst0 in Hb. unfold ks. cbn [sstored]. destruct Hb as [[Hk ->]|(Hk & s' & Hin & ->)].
    + assert ((if Pos.eqb h1 h then {[k]} ∪ sstored tr h else sstored tr h) = sstored tr h) as ->.
      { destruct (Pos.eqb_spec h1 h) as [->|]; [|done]. apply subseteq_union_1_L. by apply singleton_subseteq_l. }
      lia.
    + apply Honly in Hin as [-> ->]. rewrite Pos.eqb_refl.
      pose proof (elements_union_singleton (sstored tr h) k Hk) as Hp.
      rewrite (branches_perm dig s _ _ Hp), Hp. pose proof (new_key_total dig s (elements (sstored tr h)) k). simpl. lia.
Qed.
End sets.
