(** How often a call accesses memory in a container in a sound state. *)
From stdpp Require Import base numbers list gmap.
From Verif Require Prog PAmt ProgSim.
From Verif Require Import TimeSpec Time.
From Verif Require Import GoInt Mem Hash Amt Families BitsFacts Steps Tree Rep Paths Descend Insert Split Delete Remove Core Scan Order Heap Spec DepthSpec Depth MemorySpec Memory MemoryRuns Cost ReadOps.
Local Open Scope nat_scope.

Section route.
Context {K HS V CK U : Type} `{Countable K} (F : fam K HS V CK U) (L : layout K V CK) (s : N).
Local Notation D := 240.
Hypothesis HF : fam_ok F L.
Hypothesis HL : laws F L.
Variable dig : N -> K -> nat -> N.
Hypothesis Hdig : ∀ s k d, nib F s k d = dig s k d.
Implicit Types (w : world V CK U) (T : tree K) (k : K).

(** A traversal goes no deeper than the key's depth. *)
Lemma route_depth w r T k fuel : Good F L D s w r T -> ly_ok L k -> 256 <= fuel ->
  ∃ x, descend F no_visit fuel s k (f_start F s k) (RootRef r) 0 tt w = Ret x w /\
    fuel <= S (depth dig s (map fst (leaves T)) k + rest x).
Proof.
  intros HG Hok Hf. destruct (load_seed _ _ _ _ _ _ _ HG) as (rt & Hrt & Hs).
  assert (Hx : ∃ x, descend F no_visit fuel s k (f_start F s k) (RootRef r) 0 tt w = Ret x w).
  { destruct (descend_plain F L D s (le_n _) w r T k fuel HG Hf) as (c & a & [(cs & _ & Hd)|(bef & k' & p & aft & _ & Hd)]); eauto. }
  destruct Hx as (x & Hx). exists x. split; [exact Hx|].
  destruct (descend_fuel F s k fuel _ _ _ _ _ _ Hx) as (j & Hj & Hlow & _).
  destruct (find_levels F L s dig Hdig w r T k fuel HG Hf) as (j' & Hj' & _ & Hhigh & Ha).
  assert (Hjj : j <= j').
  { destruct (decide (j <= j')) as [|Hn]; [done|exfalso]. specialize (Hhigh j ltac:(lia)).
    assert (Hh : find F j (Some r) k w = Hang).
    { unfold find. rewrite (bind_Ret _ _ _ _ _ (load_root_step _ _ _ Hrt)), Hs. unfold bind. by rewrite Hlow. }
    rewrite Hh in Hhigh.
    destruct (find_spec F L HF 240 s (le_n 240) HL w r T k fuel HG Hok Hf) as [(p & _ & E)|(_ & E)]; rewrite E in Hhigh; done. }
  assert (Hrest : fuel_left x = rest x) by (by destruct x). rewrite Hrest in Hj.
  set (dp := depth dig s (map fst (leaves T)) k) in *.
  assert (j' <= dp); [|lia]. destruct (decide (dp < 241)) as [Hd|]; [|lia].
  assert (alone dig s (map fst (leaves T)) (S dp) k) as Hal; [|apply Ha in Hal; lia].
  assert (Honly : ∀ k1, k1 ∈ map fst (leaves T) -> alike dig s (S dp) k k1 = true -> k1 = k).
  { intros k1 H1 Ha1. destruct (decide (k1 = k)) as [|Hne]; [done|exfalso].
    pose proof (proj1 (depth_le dig s (map fst (leaves T)) k _) (le_n _) k1 H1 Hne) as Hc. fold dp in Hc.
    rewrite alike_iff in Ha1. pose proof (common_ge 241 (dig s k) (dig s k1) (S dp) ltac:(lia) Ha1). lia. }
  intros k1 k2 H1 H2 Ha1 Ha2. rewrite (Honly k1 H1 Ha1). symmetry. by apply Honly.
Qed.

(** What an insertion meets. *)
Lemma route_insert w r T k fuel : Good F L D s w r T -> ly_ok L k -> 256 <= fuel -> clear F L D s T k ->
  ∃ x, descend F no_visit fuel s k (f_start F s k) (RootRef r) 0 tt w = Ret x w /\
    fuel <= S (depth dig s (map fst (leaves T)) k + rest x) /\
    match x with
    | Missing _ _ _ _ _ => True
    | Present fuel' hs d l item _ => ∃ iv k', load_link item w = Ret iv w /\ f_key F iv w = Ret k' w /\
        (f_eq F k k' = true \/ (f_eq F k k' = false /\ ∃ ch dn e, f_conf F fuel' s k k' d = Some ch /\ d = N.of_nat dn /\
           radix_of (adv F s k dn hs e) ≠ radix_of (adv F s k' dn ch e) /\ 1 <= e /\ dn + e <= 255 /\
           fuel + e <= S (depth dig s (map fst (leaves T)) k + fuel')))
    end.
Proof.
  intros HG Hok Hf Hre. destruct (route_depth w r T k fuel HG Hok Hf) as (x & Hx & Hrd). exists x. split; [exact Hx|]. split; [exact Hrd|].
  assert (Hpl : placed F s T) by apply HG. destruct (load_seed _ _ _ _ _ _ _ HG) as (rt & Hrt & Hseed).
  destruct (descend_plain F L D s (le_n _) w r T k fuel HG Hf) as (cc & a & [(cs & Hst & Hd)|(bef & k' & p & aft & Hst & Hd)]);
    rewrite Hx in Hd; injection Hd as ->; [exact I|]. cbn [rest] in Hrd.
  assert (Hin : (k', p) ∈ leaves T) by (eapply present_leaf; [exact HF|exact (le_n 240)|exact HL|exact Hst]).
  destruct (Good_ok _ _ _ _ _ _ _ _ _ HG Hin) as [Hok' Hcell].
  assert (Hitem : link_at (w_mem w) (SlotRef a (length bef)) = Some (ly_leaf L k' p)) by (eapply item_at; [exact HG|exact Hst]).
  exists (ly_leaf L k' p), k'. split; [exact (load_link_step _ _ _ Hitem)|]. split; [exact (fo_key _ _ HF _ _ _ Hok' Hcell)|].
  destruct (f_eq F k k') eqn:Eq; [by left|]. right. split; [done|].
  assert (Hne : k ≠ k').
  { intros <-. assert (f_eq F k k = true) by (by apply (la_eq _ _ HL)). congruence. }
  assert (Habs : ∀ q, (k, q) ∉ leaves T).
  { intros q Hq. destruct (find_spec F L HF 240 s (le_n 240) HL w r T k fuel HG Hok Hf) as [(p' & _ & E)|(Hno & _)]; [|by apply Hno in Hq].
    unfold find in E. rewrite (bind_Ret _ _ _ _ _ (load_root_step _ _ _ Hrt)), Hseed, (bind_Ret _ _ _ _ _ Hx) in E.
    rewrite (bind_Ret _ _ _ _ _ (load_link_step _ _ _ Hitem)), (bind_Ret _ _ _ _ _ (fo_key _ _ HF _ _ _ Hok' Hcell)), Eq in E. done. }
  destruct Hst as (HT & Hr).
  assert (Hpin : (nibs F s k (S (length cc)), (k', p)) ∈ pleaves [] T).
  { rewrite <- HT, pleaves_plug, pleaves_node, cspl_app, cspl_cons. cbn [fst snd pleaves].
    rewrite nibs_S, <- Hr. set_solver +. }
  assert (Hpeq : nibs F s k (S (length cc)) = nibs F s k (length (nibs F s k (S (length cc))))) by (by rewrite nibs_length).
  destruct (Hre Habs _ _ _ Hpin Hpeq (not_eq_sym Hne) Hok') as (Hconf & (d0 & Hd0 & Hd0ne) & Hflat).
  rewrite nibs_length in Hconf. replace (S (length cc) - 1) with (length cc) in Hconf by lia.
  assert (Hagree : ∀ i, i <= length cc -> nib F s k i = nib F s k' i).
  { unfold placed in Hpl. rewrite Forall_forall in Hpl. specialize (Hpl _ Hpin). unfold well in Hpl. cbn [fst snd] in Hpl.
    rewrite nibs_length in Hpl. intros i Hi. apply (f_equal (λ l, l !! i)) in Hpl. rewrite !nibs_lookup in Hpl by lia. congruence. }
  destruct (least (λ d, nib F s k d ≠ nib F s k' d) d0 Hd0ne) as (e & He0 & Hene & Hemin).
  assert (Hce : length cc < e).
  { destruct (Nat.lt_ge_cases (length cc) e) as [|Hge]; [done|]. by apply Hagree in Hge. }
  assert (Hag : ∀ i, i < e -> nib F s k i = nib F s k' i).
  { intros i Hi. destruct (decide (nib F s k i = nib F s k' i)) as [|Hx']; [done|]. by apply Hemin in Hx'. }
  assert (Hin' : k' ∈ map fst (leaves T)) by (apply elem_of_list_fmap; exists (k', p); done).
  assert (Hdep : e <= depth dig s (map fst (leaves T)) k).
  { transitivity (common 241 (dig s k) (dig s k')); [apply common_ge; [lia|intros; rewrite <- !Hdig; auto]|].
    pose proof (proj1 (depth_le dig s (map fst (leaves T)) k _) (le_n _)) as Hy. apply Hy; done. }
  assert (Hlen : length cc <= D).
  { assert (Hh : hgt T <= S D) by apply HG. rewrite <- HT in Hh.
    pose proof (hgt_plug cc (Node a (bef ++ (nib F s k (length cc), Leaf k' p) :: aft))) as Hp. simpl hgt in Hp. lia. }
  exists (hproc F s k' (length cc)), (length cc), (e - length cc). split_and!; [apply Hconf; lia|done| |lia|lia|lia].
  rewrite !adv_hproc. replace (length cc + (e - length cc)) with e by lia. exact Hene.
Qed.

(** Del's traversal makes the same rounds. *)
Lemma descend_push r fuel k : ∀ hs l d acc w w' x w1, path_only r w w' ->
  descend F no_visit fuel s k hs l d tt w = Ret x w1 ->
  ∃ x' w2, descend F (path_push r) fuel s k hs l d acc w' = Ret x' w2 /\ rest x' = rest x.
Proof.
  induction fuel as [|fuel IH]; intros hs l d acc w w' x w1 Hp; simpl; [done|].
  unfold bind at 1. destruct (load_link l w) as [lv w2| | |] eqn:Hl; try done.
  assert (w2 = w) as -> by (eapply quiet_Ret; [apply load_link_quiet|done]).
  rewrite (bind_Ret _ _ _ _ _ (load_link_path _ _ _ _ _ _ Hp Hl)).
  destruct (_ =? 0)%N; [intros [= <- <-]; by eexists _, _|].
  unfold no_visit at 1. rewrite bind_ret. destruct (path_push_only r w w' acc (radix_of hs) l Hp) as (p' & w2 & He & Hp2).
  rewrite (bind_Ret _ _ _ _ _ He).
  destruct (_ =? 0)%N; [intros Hd; by eapply IH|]. intros [= <- <-]. by eexists _, _.
Qed.
End route.

Section time.
Context {K HS V CK U : Type} `{Countable K} (F : fam K HS V CK U) (L : layout K V CK) (s : N).
Local Notation D := 240.
Hypothesis HF : fam_ok F L.
Hypothesis HL : laws F L.
Variable dig : N -> K -> nat -> N.
Hypothesis Hdig : ∀ s k d, nib F s k d = dig s k d.
Implicit Types (w : world V CK U) (T : tree K) (k : K).
Variable PF : PAmt.fam K HS V CK U.
Hypothesis HP : ProgSim.famsim PF F.
Hypothesis Hkey : ∀ iv, atmost 1 (PAmt.f_key PF iv).

Lemma load_link_cost l w : cost (Prog.load_link l) w <= 1.
Proof. apply atmost_cost, atmost_load_link. Qed.
Lemma load_root_cost r w : cost (Prog.load_root r) w <= 1.
Proof. apply atmost_cost, atmost_load_root. Qed.

(** ** Lookups *)
Lemma find_time w r T k fuel : Good F L D s w r T -> ly_ok L k -> 256 <= fuel ->
  cost (PAmt.find PF fuel (Some r) k) w <= depth dig s (map fst (leaves T)) k + 4.
Proof.
  intros HG Hok Hf. destruct (load_seed _ _ _ _ _ _ _ HG) as (rt & Hrt & Hseed).
  destruct (route_depth F L s HF HL dig Hdig w r T k fuel HG Hok Hf) as (x & Hx & Hrd).
  unfold PAmt.find. rewrite (cost_bind_Ret _ _ _ rt w).
  2:{ rewrite Prog.sim_load_root. exact (load_root_step _ _ _ Hrt). }
  pose proof (load_root_cost r w). rewrite Hseed, (ProgSim.fs_start _ _ HP).
  pose proof (ProgSim.sim_descend PF F HP PAmt.no_visit no_visit s k (λ a n l, ProgSim.sim_no_visit a n l) fuel (f_start F s k) (RootRef r) 0%N tt w) as Hsim.
  rewrite Hx in Hsim. rewrite (cost_bind_Ret _ _ _ _ _ Hsim).
  destruct (descend_time PF PAmt.no_visit 0 s k fuel ltac:(done) _ _ 0 _ _ _ _ Hsim ltac:(lia)) as [Hc _].
  change (N.of_nat 0) with 0%N in Hc.
  match goal with |- _ + (_ + ?c) <= _ => assert (c <= 2) end; [|lia].
  apply atmost_cost. destruct x as [|fuel' hs d l item acc]; [done|].
  eapply atmost_spend; [apply atmost_load_link|lia|]. intros iv n1 Hn1. eapply atmost_spend; [apply Hkey|lia|]. done.
Qed.
Lemma has_time w r T k fuel : Good F L D s w r T -> ly_ok L k -> 256 <= fuel ->
  cost (PAmt.has PF fuel (Some r) k) w <= depth dig s (map fst (leaves T)) k + 4.
Proof.
  intros HG Hok Hf. unfold PAmt.has. rewrite cost_bind. pose proof (find_time w r T k fuel HG Hok Hf).
  destruct (Prog.run _ w); cbn [cost Prog.ret]; lia.
Qed.
Lemma ptr_time w r T k fuel : Good F L D s w r T -> ly_ok L k -> 256 <= fuel ->
  cost (PAmt.ptr_of PF fuel (Some r) k) w <= depth dig s (map fst (leaves T)) k + 4.
Proof.
  intros HG Hok Hf. unfold PAmt.ptr_of. rewrite cost_bind. pose proof (find_time w r T k fuel HG Hok Hf).
  destruct (Prog.run _ w) as [[iv|] w'| | |]; cbn [cost Prog.ret]; try lia. destruct (lk_ptr iv); cbn [cost Prog.ret Prog.panic]; lia.
Qed.
Lemma get_time zero w r T k fuel : Good F L D s w r T -> ly_ok L k -> 256 <= fuel ->
  cost (PAmt.get PF fuel zero (Some r) k) w <= depth dig s (map fst (leaves T)) k + 5.
Proof.
  intros HG Hok Hf. unfold PAmt.get. rewrite cost_bind. pose proof (ptr_time w r T k fuel HG Hok Hf).
  destruct (Prog.run _ w) as [p w'| | |]; try lia.
  match goal with |- _ + ?c <= _ => assert (c <= 1) end; [|lia]. apply atmost_cost. destruct p; [done|].
  eapply atmost_spend; [apply atmost_load_kv|lia|]. done.
Qed.
Lemma val_time zero w r T k fuel : Good F L D s w r T -> ly_ok L k -> 256 <= fuel ->
  cost (PAmt.val PF fuel zero (Some r) k) w <= depth dig s (map fst (leaves T)) k + 5.
Proof.
  intros HG Hok Hf. unfold PAmt.val. rewrite cost_bind. pose proof (ptr_time w r T k fuel HG Hok Hf).
  destruct (Prog.run _ w) as [p w'| | |]; try lia.
  match goal with |- _ + ?c <= _ => assert (c <= 1) end; [|lia]. apply atmost_cost. destruct p; [done|].
  eapply atmost_spend; [apply atmost_load_kv|lia|]. done.
Qed.

(** ** Insertion *)
Lemma insert_time pop w r T k fuel : Good F L D s w r T -> ly_ok L k -> 256 <= fuel -> clear F L D s T k ->
  (∀ iv, atmost 4 (PAmt.io_found pop iv)) -> atmost 4 (PAmt.io_new pop) -> atmost 4 (PAmt.io_split pop) ->
  cost (PAmt.insert PF pop fuel (Some r) k) w <= 7 * depth dig s (map fst (leaves T)) k + 200.
Proof.
  intros HG Hok Hf Hre Hfound Hnew Hsplit. destruct (load_seed _ _ _ _ _ _ _ HG) as (rt & Hrt & Hseed).
  destruct (route_insert F L s HF HL dig Hdig w r T k fuel HG Hok Hf Hre) as (x & Hx & Hrd & Hcase).
  unfold PAmt.insert. rewrite (cost_bind_Ret _ _ _ rt w).
  2:{ rewrite Prog.sim_load_root. exact (load_root_step _ _ _ Hrt). }
  pose proof (load_root_cost r w). rewrite Hseed, (ProgSim.fs_start _ _ HP).
  pose proof (ProgSim.sim_descend PF F HP PAmt.no_visit no_visit s k (λ a n l, ProgSim.sim_no_visit a n l) fuel (f_start F s k) (RootRef r) 0%N tt w) as Hsim.
  rewrite Hx in Hsim. rewrite (cost_bind_Ret _ _ _ _ _ Hsim).
  destruct (descend_time PF PAmt.no_visit 0 s k fuel ltac:(done) _ _ 0 _ _ _ _ Hsim ltac:(lia)) as [Hc _].
  change (N.of_nat 0) with 0%N in Hc.
  destruct x as [fuel' hs d l acc|fuel' hs d l item acc]; cbn [rest] in *.
  - match goal with |- _ + (_ + ?c) <= _ => assert (c <= 170) end; [|lia]. apply atmost_cost.
    eapply atmost_spend; [apply atmost_load_link|lia|]. intros lv n1 Hn1.
    eapply atmost_mono; [|apply atmost_add_item; [exact Hnew|]]; [lia|]. apply idx_of_16. apply radix_of_lt.
  - destruct Hcase as (iv & k' & Hiv & Hk' & Hcase). unfold PAmt.add_present.
    rewrite (cost_bind_Ret _ _ _ iv w) by (by rewrite Prog.sim_load_link).
    pose proof (load_link_cost item w).
    rewrite (cost_bind_Ret _ _ _ k' w) by (by rewrite (ProgSim.fs_key _ _ HP)).
    pose proof (atmost_cost _ 1 w (Hkey iv)). rewrite (ProgSim.fs_eq _ _ HP), (ProgSim.fs_conf _ _ HP).
    destruct Hcase as [->|(-> & ch & dn & e & -> & -> & Hne & He & Hde & Hfe)].
    + pose proof (atmost_cost _ 4 w (Hfound iv)). lia.
    + match goal with |- _ + (_ + (_ + (_ + ?c))) <= _ => assert (c <= 7 * e + 23) end; [|lia]. apply atmost_cost.
      destruct (PAmt.io_check pop && _).
      { eapply atmost_spend; [exact Hsplit|lia|]. intros q n1 Hn1. eapply atmost_mono; [|apply atmost_upd_link]. lia. }
      eapply atmost_spend; [apply atmost_upd_link|lia|]. intros _ n1 Hn1.
      eapply atmost_spend; [apply atmost_upd_root|lia|]. intros _ n2 Hn2.
      eapply atmost_split; [exact Hsplit|exact HP|exact Hne|lia|lia|lia].
Qed.

(** ** Deletion *)
Lemma delete_time miss w r T k fuel : Good F L D s w r T -> ly_ok L k -> 256 <= fuel ->
  cost (PAmt.delete_gen PF miss fuel (Some r) k) w <= 19 * depth dig s (map fst (leaves T)) k + 250.
Proof.
  intros HG Hok Hf. destruct (load_seed _ _ _ _ _ _ _ HG) as (rt & Hrt & Hseed).
  destruct (route_depth F L s HF HL dig Hdig w r T k fuel HG Hok Hf) as (x0 & Hx0 & Hrd).
  destruct (descend_push F s r fuel k _ _ _ (PRoot 0) w w x0 w (path_only_refl r w rt Hrt) Hx0) as (x & w2 & Hx & Hrest).
  rewrite <- Hrest in Hrd. clear x0 Hx0 Hrest.
  unfold PAmt.delete_gen. rewrite (cost_bind_Ret _ _ _ rt w).
  2:{ rewrite Prog.sim_load_root. exact (load_root_step _ _ _ Hrt). }
  pose proof (load_root_cost r w). rewrite Hseed, (ProgSim.fs_start _ _ HP).
  pose proof (ProgSim.sim_descend PF F HP (PAmt.path_push r) (path_push r) s k (λ a n l, ProgSim.sim_path_push r a n l) fuel (f_start F s k) (RootRef r) 0%N (PRoot 0) w) as Hsim.
  rewrite Hx in Hsim. rewrite (cost_bind_Ret _ _ _ _ _ Hsim).
  destruct (descend_time PF (PAmt.path_push r) 3 s k fuel (λ a n l, atmost_path_push r a n l) _ _ 0 _ _ _ _ Hsim ltac:(lia)) as [Hc (dn & Hl & Hd & Hdn)].
  change (N.of_nat 0) with 0%N in Hc.
  match goal with |- _ + (_ + ?c) <= _ => assert (c <= 15 * dn + 223) end; [|lia]. apply atmost_cost.
  destruct x as [fuel' hs d l acc|fuel' hs d l item acc]; [done|]. cbn [level] in Hl. subst d.
  eapply atmost_spend; [apply atmost_load_link|lia|]. intros iv n1 Hn1. eapply atmost_spend; [apply Hkey|lia|]. intros ck n2 Hn2.
  destruct (miss _); [done|]. eapply atmost_spend; [apply atmost_load_link|lia|]. intros lv n3 Hn3.
  apply atmost_remove; [done|apply idx_of_32|lia].
Qed.
End time.

(** ** Iteration *)
Section scan.
Context {K V CK U : Type} (L : layout K V CK).
Implicit Types (w : world V CK U).
Variables (pact : link -> Prog.prog V CK U bool) (act : link -> M V CK U bool) (c : nat).
Hypothesis Hsim : ∀ iv, Prog.sim (pact iv) (act iv).
Hypothesis Hc : ∀ iv, atmost c (pact iv).
Variables (r : loc) (T : tree K).
Variable I : list (K * ptr) -> world V CK U -> Prop.
Hypothesis HInv : ∀ es w, I es w -> carries L w r T.
Hypothesis Hact : ∀ k p es w w', I ((k, p) :: es) w -> act (ly_leaf L k p) w = Ret true w' -> I es w'.

Lemma scan_time fuel : ∀ c0 t rest pre w, plug c0 t = T -> is_leaf t = false -> hgt t <= fuel -> I (leaves t ++ rest) w ->
  cost (PAmt.scan pact fuel (hole r c0)) w + 1 <= 2 * length (nodes pre t) + (2 + c) * length (leaves t).
Proof.
  induction fuel as [|fuel IH]; intros c0 t rest pre w HT Hl Hf Hw; (destruct t as [|a cs]; [done|]); [simpl in Hf; lia|].
  assert (Hlk : ∀ es w', I es w' -> link_at (w_mem w') (hole r c0) = Some (Link (At a) (bits_of (map fst cs)) (bits_of (lrads cs))) /\
    radixes (map fst cs)).
  { intros es w' Hw'. apply HInv in Hw' as [(rt & Hrt & Hrep) _]. rewrite <- HT in Hrep.
    destruct (rep_hole L _ _ _ _ _ Hrt Hrep) as (lk & H1 & H2). apply rep_node_inv in H2 as (-> & H2 & _). done. }
  assert (Hch : ∀ es w' bef n k p aft, I es w' -> cs = bef ++ (n, Leaf k p) :: aft ->
    link_at (w_mem w') (SlotRef a (length bef)) = Some (ly_leaf L k p)).
  { intros es w' bef n k p aft Hw' ->. apply HInv in Hw' as [(rt & Hrt & Hrep) _]. rewrite <- HT in Hrep.
    change (plug c0 (Node a (bef ++ (n, Leaf k p) :: aft))) with (plug (Frame a bef n aft :: c0) (Leaf k p)) in Hrep.
    destruct (rep_hole L _ _ _ _ _ Hrt Hrep) as (lk & H1 & H2). apply rep_leaf_inv in H2 as (-> & _). exact H1. }
  destruct (Hlk _ w Hw) as [Hlk0 Hrs].
  cbn [PAmt.scan].
  rewrite (cost_bind_Ret _ _ _ (Link (At a) (bits_of (map fst cs)) (bits_of (lrads cs))) w) by (rewrite Prog.sim_load_link; exact (load_link_step _ _ _ Hlk0)).
  pose proof (load_link_cost (hole r c0) w) as H1. cbn [lk_pmap lk_tmap].
  rewrite ones_count_bits_of by done. rewrite map_length.
  change (leaves (Node a cs)) with (flat_map (λ c0 : N * tree K, leaves c0.2) cs).
  change (nodes pre (Node a cs)) with ((pre, (a, length cs)) :: csn pre cs). cbn [length].
  assert (Hloop : ∀ cs2 cs1 w', cs = cs1 ++ cs2 -> I (flat_map (λ c0 : N * tree K, leaves c0.2) cs2 ++ rest) w' ->
    cost (PAmt.scan_items (PAmt.scan pact fuel) pact (hole r c0) (bits_of (lrads cs)) (length cs2) (length cs1) (bits_of (map fst cs2))) w'
    <= 2 * length (csn pre cs2) + (2 + c) * length (flat_map (λ c0 : N * tree K, leaves c0.2) cs2)).
  2:{ pose proof (Hloop cs [] w eq_refl Hw) as Hx. cbn [length] in Hx. lia. }
  clear Hlk0 w Hw H1. induction cs2 as [|[n t] cs2 IHcs]; intros cs1 w Hcs Hw; [simpl; lia|].
  assert (Hrs' := Hrs). rewrite Hcs, map_app in Hrs'. cbn [map fst] in Hrs'.
  assert (Hn16 : (n < 16)%N) by (by apply radixes_app_cons in Hrs' as (_ & _ & ? & _)).
  assert (Hrs2 : radixes (n :: map fst cs2)) by (by apply radixes_app in Hrs' as [_ ?]).
  cbn [length PAmt.scan_items map fst]. rewrite trailing_zeros_bits_of by done.
  change (shl32 1 n) with (bit_of n).
  destruct (Hlk _ w Hw) as [Hlk1 _].
  rewrite (cost_bind_Ret _ _ _ (Link (At a) (bits_of (map fst cs)) (bits_of (lrads cs))) w) by (rewrite Prog.sim_load_link; exact (load_link_step _ _ _ Hlk1)).
  pose proof (load_link_cost (hole r c0) w) as H1. cbn [lk_ptr elem].
  rewrite land_bit_of by lia. rewrite negb_involutive.
  cbn [flat_map snd]. cbn [flat_map snd] in Hw. rewrite <- app_assoc in Hw.
  change (csn pre ((n, t) :: cs2)) with (nodes (pre ++ [n]) t ++ csn pre cs2). rewrite !app_length.
  assert (Hstep : (if bool_decide (n ∈ lrads cs) then iv <- load_link (SlotRef a (length cs1));; act iv
     else scan act fuel (SlotRef a (length cs1))) w = visits L act (leaves t) w /\
     cost (if bool_decide (n ∈ lrads cs) then Prog.bind (Prog.load_link (SlotRef a (length cs1))) (λ iv, pact iv)
       else PAmt.scan pact fuel (SlotRef a (length cs1))) w + 1 <= 2 * length (nodes (pre ++ [n]) t) + (2 + c) * length (leaves t)).
  { assert (Hlb : n ∈ lrads cs <-> is_leaf t = true).
    { rewrite Hcs. by apply leaf_child_bit. }
    destruct t as [k p|a' cs'].
    - rewrite !bool_decide_true by (by apply Hlb). pose proof (load_link_step _ _ _ (Hch _ w cs1 n k p cs2 Hw Hcs)) as Hld.
      split.
      + rewrite (bind_Ret _ _ _ _ _ Hld). cbn [leaves visits fst snd]. unfold bind. destruct (act _ w) as [[]| | |]; done.
      + rewrite (cost_bind_Ret _ _ _ (ly_leaf L k p) w) by (rewrite Prog.sim_load_link; exact Hld).
        pose proof (load_link_cost (SlotRef a (length cs1)) w). pose proof (atmost_cost _ c w (Hc (ly_leaf L k p))).
        cbn [leaves nodes length]. lia.
    - rewrite !bool_decide_false by (rewrite Hlb; done).
      assert (HT' : plug (Frame a cs1 n cs2 :: c0) (Node a' cs') = T).
      { cbn [plug]. unfold fill. cbn [fr_a fr_bef fr_r fr_aft]. by rewrite <- Hcs. }
      assert (Hf' : hgt (Node a' cs') <= fuel).
      { rewrite Hcs in Hf. apply hgt_node_le in Hf. apply Forall_app in Hf as [_ Hf]. by apply Forall_cons in Hf as [Hf _]. }
      split.
      + eapply (scan_steps L act r T I HInv Hact fuel (Frame a cs1 n cs2 :: c0)); [exact HT'|done|exact Hf'|exact Hw].
      + eapply (IH (Frame a cs1 n cs2 :: c0)); [exact HT'|done|exact Hf'|exact Hw]. }
  destruct Hstep as [Hrun Hcost].
  rewrite cost_bind.
  assert (Hrun' : Prog.run (if bool_decide (n ∈ lrads cs) then Prog.bind (Prog.load_link (SlotRef a (length cs1))) (λ iv, pact iv)
       else PAmt.scan pact fuel (SlotRef a (length cs1))) w = visits L act (leaves t) w).
  { rewrite <- Hrun. destruct (bool_decide _).
    - apply (Prog.sim_bind _ _ (load_link (SlotRef a (length cs1)))); [apply Prog.sim_load_link|exact Hsim].
    - apply ProgSim.sim_scan. exact Hsim. }
  rewrite Hrun'.
  destruct (visits L act (leaves t) w) as [b w'| | |] eqn:E; try lia.
  destruct b; [|cbn [cost Prog.ret]; lia].
  rewrite andnot_cons by done.
  replace (S (length cs1)) with (length (cs1 ++ [(n, t)])) by (rewrite app_length; simpl; lia).
  assert (Hnext : I (flat_map (λ c0 : N * tree K, leaves c0.2) cs2 ++ rest) w').
  { eapply (visits_rest L act I Hact); [exact Hw|exact E]. }
  specialize (IHcs (cs1 ++ [(n, t)]) w' ltac:(by rewrite <- app_assoc) Hnext). lia.
Qed.
End scan.
