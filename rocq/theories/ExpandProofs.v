(** Proofs about tuples and loop expansion. *)
From Verif Require Import Base Token Types Values Ast Tuple Expand CrossProduct SpecProduct
  CrossProductProofs SpecTuple.
From Coq Require Import Permutation.

(** ** Breadth-first iteration *)
Section Bfs.
Context {V : Type}.
Implicit Types q : tuple V.

Lemma tuple_size_app q1 q2 : tuple_size (q1 ++ q2) = tuple_size q1 + tuple_size q2.
Proof. induction q1 as [|t q IH]; cbn [tuple_size fold_right app]; [reflexivity|]. unfold tuple_size in *. lia. Qed.

Lemma tv_size_tuple (l : tuple V) : tv_size (TVTuple l) = S (tuple_size l).
Proof. reflexivity. Qed.

Lemma tv_size_pos (t : tuple_value V) : 0 < tv_size t.
Proof. destruct t; cbn; lia. Qed.

Lemma tuple_size_cons t q : tuple_size (t :: q) = tv_size t + tuple_size q.
Proof. reflexivity. Qed.

Lemma tuple_size_0 q : tuple_size q = 0 -> q = [].
Proof. destruct q as [|t q]; [reflexivity|]. rewrite tuple_size_cons. pose proof (tv_size_pos t). lia. Qed.

Lemma bfs_values_ok fuel : forall q, tuple_size q <= fuel -> exists l, bfs_values fuel q = Ok l.
Proof.
  induction fuel as [|fuel IH]; intros q Hq.
  - assert (q = []) as -> by (apply tuple_size_0; lia). exists []; reflexivity.
  - destruct q as [|[v|l] q]; cbn [bfs_values]; [exists []; reflexivity| |].
    + rewrite tuple_size_cons in Hq; cbn in Hq.
      destruct (IH q ltac:(lia)) as (vs & ->). exists (v :: vs); reflexivity.
    + rewrite tuple_size_cons, tv_size_tuple in Hq.
      apply IH. rewrite tuple_size_app. lia.
Qed.

Lemma bfs_kinds_ok fuel : forall q, tuple_size q <= fuel -> exists l, bfs_kinds fuel q = Ok l.
Proof.
  induction fuel as [|fuel IH]; intros q Hq.
  - assert (q = []) as -> by (apply tuple_size_0; lia). exists []; reflexivity.
  - destruct q as [|[v|l] q]; cbn [bfs_kinds]; [exists []; reflexivity| |].
    + rewrite tuple_size_cons in Hq; cbn in Hq.
      destruct (IH q ltac:(lia)) as (vs & ->). eexists; reflexivity.
    + rewrite tuple_size_cons, tv_size_tuple in Hq.
      destruct (IH (q ++ l)) as (vs & ->); [rewrite tuple_size_app; lia|]. eexists; reflexivity.
Qed.

(** depth-first leaves *)
Fixpoint leaves_v (t : tuple_value V) : list V :=
  match t with TVValue v => [v] | TVTuple l => flat_map leaves_v l end.
Definition leaves q := flat_map leaves_v q.

Lemma leaves_app q1 q2 : leaves (q1 ++ q2) = leaves q1 ++ leaves q2.
Proof. apply flat_map_app. Qed.

Lemma bfs_perm fuel : forall q l, bfs_values fuel q = Ok l -> Permutation l (leaves q).
Proof.
  induction fuel as [|fuel IH]; intros q l H.
  - destruct q; cbn in H; [injection H as <-; constructor|discriminate].
  - destruct q as [|[v|ts] q]; cbn [bfs_values] in H.
    + injection H as <-; constructor.
    + destruct (bfs_values fuel q) as [vs| |] eqn:E; try discriminate H. cbn in H.
      injection H as <-. cbn. constructor. apply IH; exact E.
    + apply IH in H. rewrite leaves_app in H. cbn [leaves flat_map leaves_v].
      rewrite H. apply Permutation_app_comm.
Qed.
End Bfs.

(** ** Naturality *)
Fixpoint map_v {V W} (f : V -> W) (t : tuple_value V) : tuple_value W :=
  match t with TVValue v => TVValue (f v) | TVTuple l => TVTuple (map (map_v f) l) end.
Definition map_t {V W} (f : V -> W) (t : tuple V) : tuple W := map (map_v f) t.

Lemma bfs_values_map {V W} (f : V -> W) fuel : forall q,
  bfs_values fuel (map_t f q) =
  match bfs_values fuel q with Ok l => Ok (map f l) | Err e => Err e | Panic p => Panic p end.
Proof.
  induction fuel as [|fuel IH]; intros q.
  - destruct q; reflexivity.
  - destruct q as [|[v|l] q]; cbn [bfs_values map_t map map_v]; [reflexivity| |].
    + fold (map_t f q). rewrite IH. destruct (bfs_values fuel q); reflexivity.
    + rewrite <- map_app. fold (map_t f (q ++ l)). apply IH.
Qed.

Lemma tv_size_map {V W} (f : V -> W) (t : tuple_value V) : tv_size (map_v f t) = tv_size t.
Proof.
  induction t as [v|l IH] using tuple_ind'; [reflexivity|].
  cbn [map_v]. rewrite !tv_size_tuple. f_equal.
  induction IH as [|x r Hx Hr IH2]; [reflexivity|]. cbn [map]. rewrite !tuple_size_cons. congruence.
Qed.

Lemma tuple_size_map {V W} (f : V -> W) (q : tuple V) : tuple_size (map_t f q) = tuple_size q.
Proof.
  induction q as [|t q IH]; [reflexivity|]. cbn [map_t map]. rewrite !tuple_size_cons, tv_size_map.
  unfold map_t in IH. congruence.
Qed.

Lemma iter_recursive_map {V W} (f : V -> W) (q : tuple V) :
  iter_recursive (map_t f q) =
  match iter_recursive q with Ok l => Ok (map f l) | Err e => Err e | Panic p => Panic p end.
Proof. unfold iter_recursive. rewrite tuple_size_map. apply bfs_values_map. Qed.

(** ** Zipping tuples of equal shape *)
Fixpoint zip_v {A E} (a : tuple_value A) (e : tuple_value E) : tuple_value (A * E) :=
  match a, e with
  | TVValue x, TVValue y => TVValue (x, y)
  | TVTuple l, TVTuple m =>
      TVTuple ((fix go (l : tuple A) (m : tuple E) : tuple (A * E) :=
                  match l, m with
                  | x :: l', y :: m' => zip_v x y :: go l' m'
                  | _, _ => []
                  end) l m)
  | _, _ => TVTuple []
  end.
Fixpoint zip_t {A E} (l : tuple A) (m : tuple E) : tuple (A * E) :=
  match l, m with
  | x :: l', y :: m' => zip_v x y :: zip_t l' m'
  | _, _ => []
  end.

Lemma zip_v_tuple {A E} (l : tuple A) (m : tuple E) :
  zip_v (TVTuple l) (TVTuple m) = TVTuple (zip_t l m).
Proof.
  cbn. f_equal. revert m; induction l as [|x l IH]; intros [|y m]; cbn; try reflexivity.
  f_equal. apply IH.
Qed.

Lemma zip_v_proj {A E} (a : tuple_value A) : forall (e : tuple_value E),
  shape_v a = shape_v e -> map_v fst (zip_v a e) = a /\ map_v snd (zip_v a e) = e.
Proof.
  induction a as [x|l IH] using tuple_ind'; intros [y|m] H; try discriminate H; [split; reflexivity|].
  rewrite zip_v_tuple. cbn [shape_v] in H. injection H as H. cbn [map_v].
  enough (map (map_v fst) (zip_t l m) = l /\ map (map_v snd) (zip_t l m) = m) as [-> ->] by auto.
  revert m H; induction IH as [|x r Hx Hr IH2]; intros [|y m] H; try discriminate H; [split; reflexivity|].
  cbn [map] in H. injection H as H1 H2. cbn [zip_t map].
  destruct (Hx y H1) as [-> ->]. destruct (IH2 m H2) as [-> ->]. split; reflexivity.
Qed.

Lemma zip_t_proj {A E} (a : tuple A) (e : tuple E) :
  shape a = shape e -> map_t fst (zip_t a e) = a /\ map_t snd (zip_t a e) = e.
Proof.
  intros H. assert (Hs : shape_v (TVTuple a) = shape_v (TVTuple e)) by (cbn; f_equal; exact H).
  destruct (zip_v_proj _ _ Hs) as [H1 H2]. rewrite zip_v_tuple in H1, H2. cbn [map_v] in H1, H2.
  injection H1 as H1. injection H2 as H2. split; assumption.
Qed.

(** ** Paths *)
Lemma leaf_at_cons2 {V} i j p (t : tuple V) :
  leaf_at (i :: j :: p) t = match nth_error t i with Some (TVTuple l) => leaf_at (j :: p) l | _ => None end.
Proof. reflexivity. Qed.

Lemma leaf_at_map {V W} (f : V -> W) p : forall (t : tuple V),
  leaf_at p (map_t f t) = option_map f (leaf_at p t).
Proof.
  induction p as [|i p IH]; intros t; [reflexivity|].
  destruct p as [|j p].
  - cbn [leaf_at]. unfold map_t. rewrite nth_error_map.
    destruct (nth_error t i) as [[v|l]|]; reflexivity.
  - rewrite !leaf_at_cons2. unfold map_t at 1. rewrite nth_error_map.
    destruct (nth_error t i) as [[v|l]|]; try reflexivity.
    cbn [option_map map_v]. apply IH.
Qed.

(** every leaf replaced by its path (given in reverse order of descent) *)
Fixpoint mapi {X Y} (f : nat -> X -> Y) (i : nat) (l : list X) : list Y :=
  match l with [] => [] | x :: r => f i x :: mapi f (S i) r end.

Fixpoint paths_v {V} (rp : list nat) (t : tuple_value V) : tuple_value (list nat) :=
  match t with
  | TVValue _ => TVValue (rev rp)
  | TVTuple l => TVTuple ((fix go (i : nat) (l : tuple V) : tuple (list nat) :=
                             match l with
                             | [] => []
                             | x :: r => paths_v (i :: rp) x :: go (S i) r
                             end) 0 l)
  end.
Definition paths_from {V} (rp : list nat) (i : nat) (l : tuple V) : tuple (list nat) :=
  mapi (fun i x => paths_v (i :: rp) x) i l.
Definition paths_t {V} (t : tuple V) : tuple (list nat) := paths_from [] 0 t.

Lemma paths_v_tuple {V} rp (l : tuple V) : paths_v rp (TVTuple l) = TVTuple (paths_from rp 0 l).
Proof.
  cbn. f_equal. unfold paths_from. generalize 0 as i.
  induction l as [|x r IH]; intros i; cbn; [reflexivity|]. f_equal. apply IH.
Qed.

Lemma nth_error_mapi {X Y} (f : nat -> X -> Y) l : forall i k,
  nth_error (mapi f i l) k = option_map (f (i + k)) (nth_error l k).
Proof.
  induction l as [|x r IH]; intros i k; cbn [mapi].
  - destruct k; reflexivity.
  - destruct k as [|k]; cbn [nth_error]; [rewrite Nat.add_0_r; reflexivity|].
    rewrite IH. f_equal. f_equal. lia.
Qed.

Lemma leaf_at_paths {V} p : forall rp (t : tuple V) v,
  leaf_at p t = Some v -> leaf_at p (paths_from rp 0 t) = Some (rev rp ++ p).
Proof.
  induction p as [|i p IH]; intros rp t v H; [discriminate H|].
  destruct p as [|j p].
  - cbn [leaf_at] in *. unfold paths_from. rewrite nth_error_mapi.
    destruct (nth_error t i) as [[w|l]|]; try discriminate H. reflexivity.
  - rewrite leaf_at_cons2 in H. rewrite leaf_at_cons2. unfold paths_from at 1. rewrite nth_error_mapi.
    destruct (nth_error t i) as [[w|l]|]; try discriminate H.
    cbn [option_map]. rewrite paths_v_tuple. cbn [Nat.add].
    rewrite (IH (i :: rp) l v H). cbn [rev]. rewrite <- app_assoc. reflexivity.
Qed.

Lemma shape_paths_v {V} (t : tuple_value V) : forall rp, shape_v (paths_v rp t) = shape_v t.
Proof.
  induction t as [v|l IH] using tuple_ind'; intros rp; [reflexivity|].
  rewrite paths_v_tuple. cbn [shape_v]. f_equal. unfold paths_from. generalize 0 as i.
  induction IH as [|x r Hx Hr IH2]; intros i; cbn [mapi map]; [reflexivity|]. rewrite Hx, IH2. reflexivity.
Qed.

Lemma shape_paths {V} (t : tuple V) : shape (paths_t t) = shape t.
Proof.
  pose proof (shape_paths_v (TVTuple t) []) as H. rewrite paths_v_tuple in H. cbn [shape_v] in H.
  injection H as H. exact H.
Qed.

Lemma shape_zip {A E} (a : tuple A) (e : tuple E) : shape a = shape e -> shape (zip_t a e) = shape a.
Proof.
  intros H. destruct (zip_t_proj a e H) as [H1 _].
  rewrite <- H1 at 2. clear. generalize (zip_t a e) as t; intros t. unfold shape, map_t.
  rewrite map_map. apply map_ext. intros x.
  induction x as [v|l IH] using tuple_ind'; [reflexivity|]. cbn [map_v shape_v]. f_equal.
  rewrite map_map. induction IH; cbn; congruence.
Qed.

Lemma leaf_at_In {V} (t : tuple V) v : In v (leaves t) <-> exists p, leaf_at p t = Some v.
Proof.
  split.
  - intros Hin.
    assert (Hv : forall x : tuple_value V, In v (leaves_v x) ->
              (exists w, x = TVValue w /\ w = v) \/ exists l p, x = TVTuple l /\ leaf_at p l = Some v).
    { clear. intros x. induction x as [w|l IH] using tuple_ind'; cbn [leaves_v]; intros H.
      - left. exists w. destruct H as [H|[]]; auto.
      - right. exists l. apply in_flat_map in H as (y & Hy & Hin).
        apply In_nth_error in Hy as Hk. destruct Hk as (k & Hk).
        rewrite Forall_forall in IH. destruct (IH y Hy Hin) as [(w & -> & ->)|(m & p & -> & Hp)].
        + exists [k]. split; [reflexivity|]. cbn. rewrite Hk. reflexivity.
        + exists (k :: p). split; [reflexivity|]. destruct p as [|j p]; [discriminate Hp|].
          rewrite leaf_at_cons2, Hk. exact Hp. }
    destruct (Hv (TVTuple t) Hin) as [(w & H & _)|(l & p & H & Hp)]; [discriminate|].
    injection H as <-. exists p; exact Hp.
  - intros (p & Hp). revert t Hp; induction p as [|i p IH]; intros t Hp; [discriminate Hp|].
    destruct p as [|j p].
    + cbn [leaf_at] in Hp. destruct (nth_error t i) as [[w|l]|] eqn:E; try discriminate Hp.
      injection Hp as ->. apply nth_error_In in E. apply in_flat_map. exists (TVValue v). cbn; auto.
    + rewrite leaf_at_cons2 in Hp. destruct (nth_error t i) as [[w|l]|] eqn:E; try discriminate Hp.
      apply nth_error_In in E. apply in_flat_map. exists (TVTuple l). split; [exact E|].
      apply IH; exact Hp.
Qed.

Lemma leaf_at_shape {V W} (a : tuple V) (b : tuple W) p :
  shape a = shape b -> (leaf_at p a = None <-> leaf_at p b = None).
Proof.
  revert a b; induction p as [|i p IH]; intros a b H; [split; reflexivity|].
  assert (Hn : nth_error (shape a) i = nth_error (shape b) i) by congruence.
  unfold shape in Hn. rewrite !nth_error_map in Hn.
  destruct p as [|j p].
  - cbn [leaf_at]. destruct (nth_error a i) as [[v|l]|], (nth_error b i) as [[w|m]|];
      cbn in Hn; try discriminate Hn; split; congruence.
  - rewrite !leaf_at_cons2.
    destruct (nth_error a i) as [[v|l]|], (nth_error b i) as [[w|m]|];
      cbn in Hn; try discriminate Hn; try (split; reflexivity).
    apply IH. injection Hn as Hn. exact Hn.
Qed.

Lemma paths_prefix_v {V} (t : tuple_value V) : forall rp p,
  In p (leaves_v (paths_v rp t)) -> exists q, p = rev rp ++ q.
Proof.
  induction t as [v|l IH] using tuple_ind'; intros rp p H.
  - cbn in H. destruct H as [<-|[]]. exists []. rewrite app_nil_r. reflexivity.
  - rewrite paths_v_tuple in H. cbn [leaves_v] in H. unfold paths_from in H. revert H; generalize 0 as i.
    induction IH as [|x r Hx Hr IH2]; intros i H; cbn in H; [destruct H|].
    apply in_app_or in H as [H|H].
    + destruct (Hx _ _ H) as (q & ->). exists (i :: q). cbn [rev]. rewrite <- app_assoc. reflexivity.
    + eapply IH2; exact H.
Qed.

Lemma paths_index {V} (l : tuple V) : forall rp i p,
  In p (leaves (paths_from rp i l)) -> exists k q, i <= k /\ p = rev rp ++ k :: q.
Proof.
  induction l as [|x r IH]; intros rp i p H; cbn in H; [destruct H|].
  apply in_app_or in H as [H|H].
  - apply paths_prefix_v in H as (q & ->). exists i, q. split; [lia|]. cbn [rev]. rewrite <- app_assoc. reflexivity.
  - destruct (IH _ _ _ H) as (k & q & Hk & ->). exists k, q. split; [lia|reflexivity].
Qed.

Lemma NoDup_app_intro {X} (a b : list X) :
  NoDup a -> NoDup b -> (forall x, In x a -> ~ In x b) -> NoDup (a ++ b).
Proof.
  intros Ha Hb H. induction Ha as [|x a Hx Ha IH]; [exact Hb|]. cbn. constructor.
  - intros Hin. apply in_app_or in Hin as [Hin|Hin]; [auto|]. apply (H x); [left; reflexivity|exact Hin].
  - apply IH. intros y Hy. apply H. right; exact Hy.
Qed.

Lemma NoDup_paths_v {V} (t : tuple_value V) : forall rp, NoDup (leaves_v (paths_v rp t)).
Proof.
  induction t as [v|l IH] using tuple_ind'; intros rp.
  - cbn. constructor; [intros []|constructor].
  - rewrite paths_v_tuple. cbn [leaves_v]. unfold paths_from. generalize 0 as i.
    induction IH as [|x r Hx Hr IH2]; intros i; cbn; [constructor|].
    apply NoDup_app_intro; [apply Hx|apply IH2|].
    intros p Hp Hq. apply paths_prefix_v in Hp as (q & ->).
    apply (paths_index r) in Hq as (k & q' & Hk & Heq).
    cbn [rev] in Heq. rewrite <- app_assoc in Heq. apply app_inv_head in Heq. cbn in Heq.
    injection Heq as -> _. lia.
Qed.

Lemma NoDup_paths {V} (t : tuple V) : NoDup (leaves (paths_t t)).
Proof. pose proof (NoDup_paths_v (TVTuple t) []) as H. rewrite paths_v_tuple in H. exact H. Qed.

(** ** Level order *)
Lemma bfs_kinds_level {V} (cur : tuple V) : forall fuel nxt,
  length cur <= fuel ->
  bfs_kinds fuel (cur ++ nxt) =
  (let! ks := bfs_kinds (fuel - length cur) (nxt ++ flat_map children cur) in Ok (cur ++ ks)).
Proof.
  induction cur as [|t cur IH]; intros fuel nxt H; cbn [app length flat_map] in *.
  - rewrite Nat.sub_0_r, app_nil_r. destruct (bfs_kinds fuel nxt); reflexivity.
  - destruct fuel as [|fuel]; [lia|]. cbn [bfs_kinds Nat.sub].
    destruct t as [v|l]; cbn [children app].
    + rewrite IH by lia. destruct (bfs_kinds _ _); reflexivity.
    + rewrite <- app_assoc. rewrite IH by lia. rewrite <- app_assoc.
      destruct (bfs_kinds _ _); reflexivity.
Qed.

Lemma tuple_size_children {V} (q : tuple V) : tuple_size q = length q + tuple_size (flat_map children q).
Proof.
  induction q as [|t q IH]; [reflexivity|]. rewrite tuple_size_cons. cbn [flat_map length].
  rewrite tuple_size_app. destruct t as [v|l]; cbn [children].
  - cbn. lia.
  - rewrite tv_size_tuple. lia.
Qed.

Lemma depth_children {V} (q : tuple V) : q <> [] -> depth q = S (depth (flat_map children q)).
Proof.
  intros Hne. assert (Happ : forall a b : tuple V, depth (a ++ b) = Nat.max (depth a) (depth b)).
  { induction a as [|x a IH]; intros b; cbn; [reflexivity|]. unfold depth in *. rewrite IH. lia. }
  assert (Hv : forall t : tuple_value V, tv_depth t = S (depth (children t))).
  { intros [v|l]; reflexivity. }
  destruct q as [|t q]; [congruence|]. clear Hne. revert t; induction q as [|u q IH]; intros t.
  - cbn [flat_map]. rewrite app_nil_r. cbn. rewrite Hv. lia.
  - cbn [flat_map] in *. rewrite Happ. cbn [depth fold_right]. rewrite Hv.
    specialize (IH u). cbn [depth fold_right] in IH. rewrite IH. lia.
Qed.

Lemma iter_destructuring_levels {V} (t : tuple V) :
  exists ks, iter_destructuring t = Ok ks /\ map is_tuple ks = kinds_in_level_order t.
Proof.
  unfold iter_destructuring, kinds_in_level_order.
  remember (depth t) as d eqn:Hd. revert t Hd. induction d as [|d IH]; intros t Hd.
  - destruct t as [|x t].
    + exists []. split; reflexivity.
    + rewrite depth_children in Hd by discriminate. discriminate.
  - destruct t as [|x t]; [discriminate Hd|].
    remember (x :: t) as q eqn:Hq.
    pose proof (bfs_kinds_level q (tuple_size q) []) as E.
    rewrite app_nil_r in E. specialize (E ltac:(rewrite tuple_size_children; lia)).
    cbn [app] in E. replace (tuple_size q - length q) with (tuple_size (flat_map children q)) in E
      by (rewrite (tuple_size_children q); lia).
    destruct (IH (flat_map children q)) as (ks & Hk & Hm).
    { rewrite depth_children in Hd by (subst; discriminate). lia. }
    rewrite E.
    exists (q ++ ks). split; [rewrite Hk; reflexivity|].
    rewrite map_app, Hm. reflexivity.
Qed.

Lemma kinds_match_iff {V W} (a : list (tuple_value V)) : forall (b : list (tuple_value W)),
  length a = length b -> (kinds_match a b = true <-> map is_tuple a = map is_tuple b).
Proof.
  induction a as [|x a IH]; intros [|y b] H; try discriminate H; [split; reflexivity|].
  cbn [length] in H. injection H as H. cbn [map].
  destruct x, y; cbn [kinds_match is_tuple]; rewrite ?IH by exact H; split; try congruence; try discriminate.
Qed.

Lemma match_tuples_iff a e :
  match_tuples a e = (if list_eq_dec bool_dec (kinds_in_level_order a) (kinds_in_level_order e)
                      then Ok Datatypes.tt else Err TypeError).
Proof.
  unfold match_tuples.
  destruct (iter_destructuring_levels a) as (ka & -> & Ha).
  destruct (iter_destructuring_levels e) as (ke & -> & He). cbn [bind].
  rewrite <- Ha, <- He.
  destruct (Nat.eqb_spec (length ka) (length ke)) as [Hl|Hl].
  - pose proof (kinds_match_iff ka ke Hl) as Hk.
    destruct (kinds_match ka ke), (list_eq_dec bool_dec (map is_tuple ka) (map is_tuple ke)); try reflexivity.
    + exfalso. apply n. apply Hk. reflexivity.
    + exfalso. apply Hk in e0. discriminate.
  - destruct (list_eq_dec bool_dec (map is_tuple ka) (map is_tuple ke)) as [E|]; [|reflexivity].
    exfalso. apply Hl. rewrite <- (map_length is_tuple ka), E, map_length. reflexivity.
Qed.

Lemma shape_level_order {V W} d : forall (a : tuple V) (b : tuple W),
  shape a = shape b -> level_order d a = level_order d b.
Proof.
  induction d as [|d IH]; intros a b H; [reflexivity|]. cbn [level_order].
  assert (Hk : forall X (t : tuple X), map is_tuple (shape t) = map is_tuple t).
  { intros X t. unfold shape. rewrite map_map. apply map_ext. intros [v|l]; reflexivity. }
  assert (Hc : forall X (t : tuple X), shape (flat_map children t) = flat_map children (shape t)).
  { intros X t. induction t as [|x t IHt]; [reflexivity|]. cbn [flat_map]. unfold shape in *.
    rewrite map_app, IHt. destruct x as [v|l]; reflexivity. }
  f_equal.
  - rewrite <- (Hk _ a), <- (Hk _ b), H. reflexivity.
  - apply IH. rewrite !Hc, H. reflexivity.
Qed.

Lemma shape_depth {V W} (a : tuple V) (b : tuple W) : shape a = shape b -> depth a = depth b.
Proof.
  assert (Hv : forall X (t : tuple_value X), tv_depth (shape_v t) = tv_depth t).
  { intros X t. induction t as [v|l IH] using tuple_ind'; [reflexivity|]. cbn. f_equal.
    induction IH as [|x r Hx Hr IH2]; cbn; [reflexivity|]. congruence. }
  assert (Hd : forall X (t : tuple X), depth (shape t) = depth t).
  { intros X t. induction t as [|x t IH]; [reflexivity|]. cbn. rewrite Hv. unfold depth, shape in IH. rewrite IH. reflexivity. }
  intros H. rewrite <- (Hd _ a), <- (Hd _ b), H. reflexivity.
Qed.

Lemma shape_kinds {V W} (a : tuple V) (b : tuple W) :
  shape a = shape b -> kinds_in_level_order a = kinds_in_level_order b.
Proof. intros H. unfold kinds_in_level_order. rewrite (shape_depth a b H). apply shape_level_order, H. Qed.

Lemma iter_recursive_ok {V} (t : tuple V) : exists l, iter_recursive t = Ok l /\ Permutation l (leaves t).
Proof.
  destruct (bfs_values_ok (tuple_size t) t (le_n _)) as (l & H). exists l. split; [exact H|].
  eapply bfs_perm; exact H.
Qed.

(** C04 *)
Lemma make_spec_items_same_shape a e :
  shape a = shape e ->
  exists paths items,
    make_spec_items (LATuple a) (LSTuple e) = Ok items /\
    NoDup paths /\
    (forall p, In p paths <-> leaf_at p a <> None) /\
    Forall2 (fun p it => leaf_at p a = Some (fst it) /\ leaf_at p e = Some (snd it)) paths items.
Proof.
  intros H.
  pose (z := zip_t (paths_t a) (zip_t a e)).
  assert (Hs1 : shape (paths_t a) = shape (zip_t a e)).
  { rewrite shape_paths, shape_zip by exact H. reflexivity. }
  destruct (zip_t_proj a e H) as [Hza Hze].
  destruct (zip_t_proj _ _ Hs1) as [Hzp Hzz]. fold z in Hzp, Hzz.
  destruct (iter_recursive_ok z) as (l & Hl & Hperm).
  exists (map fst l), (map snd l).
  assert (Hib : iter_recursive (zip_t a e) = Ok (map snd l)).
  { rewrite <- Hzz, iter_recursive_map, Hl. reflexivity. }
  assert (Hia : iter_recursive a = Ok (map fst (map snd l))).
  { rewrite <- Hza, iter_recursive_map, Hib. reflexivity. }
  assert (Hie : iter_recursive e = Ok (map snd (map snd l))).
  { rewrite <- Hze at 1. rewrite iter_recursive_map, Hib. reflexivity. }
  assert (Hip : iter_recursive (paths_t a) = Ok (map fst l)).
  { rewrite <- Hzp, iter_recursive_map, Hl. reflexivity. }
  assert (Hpp : Permutation (map fst l) (leaves (paths_t a))).
  { destruct (iter_recursive_ok (paths_t a)) as (l' & Hl' & Hp'). congruence. }
  split; [|split; [|split]].
  - unfold make_spec_items. rewrite match_tuples_iff.
    destruct (list_eq_dec bool_dec _ _) as [_|n]; [|exfalso; apply n, shape_kinds, H].
    cbn [bind]. rewrite Hia, Hie. cbn [bind]. f_equal.
    clear. generalize (map snd l) as m. induction m as [|[x y] m IH]; cbn; congruence.
  - eapply Permutation_NoDup; [symmetry; exact Hpp|]. apply NoDup_paths.
  - intros p. split.
    + intros Hin. eapply Permutation_in in Hin; [|exact Hpp].
      apply leaf_at_In in Hin as (q & Hq).
      assert (Hqa : leaf_at q a <> None).
      { intros Hn. apply (leaf_at_shape a (paths_t a)) in Hn; [congruence|]. rewrite shape_paths. reflexivity. }
      destruct (leaf_at q a) as [v|] eqn:E; [|congruence].
      unfold paths_t in Hq. rewrite (leaf_at_paths q [] a v E) in Hq. cbn in Hq.
      injection Hq as <-. congruence.
    + intros Hn. destruct (leaf_at p a) as [v|] eqn:E; [|congruence].
      eapply Permutation_in; [symmetry; exact Hpp|]. apply leaf_at_In. exists p.
      unfold paths_t. rewrite (leaf_at_paths p [] a v E). reflexivity.
  - assert (Hall : forall x, In x l -> leaf_at (fst x) a = Some (fst (snd x)) /\ leaf_at (fst x) e = Some (snd (snd x))).
    { intros [q [x y]] Hin. eapply Permutation_in in Hin; [|exact Hperm].
      apply leaf_at_In in Hin as (p & Hp). cbn [fst snd].
      assert (Hpa : leaf_at p (paths_t a) = Some q).
      { rewrite <- Hzp, leaf_at_map, Hp. reflexivity. }
      assert (Hpz : leaf_at p (zip_t a e) = Some (x, y)).
      { rewrite <- Hzz, leaf_at_map, Hp. reflexivity. }
      assert (Hxa : leaf_at p a = Some x) by (rewrite <- Hza, leaf_at_map, Hpz; reflexivity).
      assert (Hye : leaf_at p e = Some y) by (rewrite <- Hze, leaf_at_map, Hpz; reflexivity).
      unfold paths_t in Hpa. rewrite (leaf_at_paths p [] a x Hxa) in Hpa. cbn in Hpa.
      injection Hpa as <-. auto. }
    clear -Hall. induction l as [|x l IH]; cbn; constructor.
    + apply Hall. left; reflexivity.
    + apply IH. intros y Hy. apply Hall. right; exact Hy.
Qed.

Lemma make_spec_items_accepts_iff a e :
  (exists items, make_spec_items (LATuple a) (LSTuple e) = Ok items) <->
  kinds_in_level_order a = kinds_in_level_order e.
Proof.
  unfold make_spec_items. rewrite match_tuples_iff.
  destruct (iter_recursive_ok a) as (la & -> & _). destruct (iter_recursive_ok e) as (le & -> & _).
  destruct (list_eq_dec bool_dec _ _) as [H|H]; cbn [bind]; split; intros Hx.
  - exact H.
  - eexists; reflexivity.
  - destruct Hx; discriminate.
  - congruence.
Qed.

Lemma make_spec_items_error a e :
  kinds_in_level_order a <> kinds_in_level_order e ->
  make_spec_items (LATuple a) (LSTuple e) = Err TypeError.
Proof.
  intros H. unfold make_spec_items. rewrite match_tuples_iff.
  destruct (list_eq_dec bool_dec _ _); [congruence|]. reflexivity.
Qed.

Lemma level_order_flat {V} (a : tuple V) :
  forallb (fun t => negb (is_tuple t)) a = true -> kinds_in_level_order a = map (fun _ => false) a.
Proof.
  intros H. unfold kinds_in_level_order.
  destruct a as [|x a]; [reflexivity|]. rewrite depth_children by discriminate.
  cbn [level_order].
  assert (Hf : flat_map children (x :: a) = []).
  { revert H. generalize (x :: a) as q. induction q as [|t q IH]; [reflexivity|]. cbn. intros H.
    apply andb_true_iff in H as [H1 H2]. destruct t; [|discriminate]. cbn. apply IH, H2. }
  rewrite Hf. cbn [depth fold_right level_order]. rewrite app_nil_r.
  revert H. generalize (x :: a) as q. induction q as [|t q IH]; [reflexivity|]. cbn. intros H.
  apply andb_true_iff in H as [H1 H2]. destruct t; [|discriminate]. cbn. f_equal. apply IH, H2.
Qed.

(** A value tuple for a flat alias tuple is accepted only if it has the same shape. *)
Lemma flat_accepts_same_shape {V W} (a : tuple V) (e : tuple W) :
  forallb (fun t => negb (is_tuple t)) a = true ->
  kinds_in_level_order a = kinds_in_level_order e -> shape a = shape e.
Proof.
  intros Hf H. rewrite (level_order_flat a Hf) in H.
  assert (Hef : forallb (fun t => negb (is_tuple t)) e = true).
  { destruct e as [|y e]; [reflexivity|].
    unfold kinds_in_level_order in H. rewrite depth_children in H by discriminate. cbn [level_order] in H.
    assert (Hall : forall b, In b (map is_tuple (y :: e)) -> b = false).
    { intros b Hb. assert (Hb' : In b (map (fun _ : tuple_value V => false) a)).
      { rewrite H. apply in_or_app. left. exact Hb. }
      apply in_map_iff in Hb' as (? & <- & _). reflexivity. }
    apply forallb_forall. intros t Ht. rewrite (Hall (is_tuple t)); [reflexivity|].
    apply in_map. exact Ht. }
  rewrite (level_order_flat e Hef) in H.
  clear -Hf Hef H. revert e Hef H; induction a as [|x a IH]; intros [|y e] Hef H; try discriminate H; [reflexivity|].
  cbn in *. apply andb_true_iff in Hf as [Hx Hf]. apply andb_true_iff in Hef as [Hy Hef].
  injection H as H. destruct x; [|discriminate]. destruct y; [|discriminate].
  unfold shape in *. cbn. f_equal. apply IH; assumption.
Qed.

(** ** Expansion *)
Section Exp.
Context {B : Type}.
Implicit Types ast : raw_ast B.

Lemma expand_loop_at ast loops ss fuel : forall k c,
  at_ ss k c -> length (all_combinations ss) < fuel + k -> 0 < fuel ->
  expand_loop fuel ast loops c = mapM (rewrite_for ast loops) (skipn k (all_combinations ss)).
Proof.
  induction fuel as [|fuel IH]; intros k c H Hl Hp; [lia|].
  cbn [expand_loop]. destruct (next_at ss k c H) as (c1 & -> & H1). cbn [bind].
  destruct (nth_error (all_combinations ss) k) as [x|] eqn:Hx.
  - assert (k < length (all_combinations ss)) by (apply nth_error_Some; congruence).
    rewrite (nth_error_skipn _ _ _ Hx). cbn [mapM].
    destruct (rewrite_for ast loops x); cbn [bind]; try reflexivity.
    rewrite (IH (S k)) by (try exact H1; lia). reflexivity.
  - apply nth_error_None in Hx. rewrite skipn_all2 by exact Hx. reflexivity.
Qed.

Lemma fold_cnt {A} (ss : list (list A)) : fold_right (fun v n => length v * n) 1 ss = cnt ss.
Proof. induction ss as [|x r IH]; cbn; [reflexivity|]. rewrite IH. reflexivity. Qed.

Lemma expand_loops ast loops :
  ast_loops ast = Some loops ->
  expand ast = mapM (rewrite_for ast loops) (all_combinations (map loop_values loops)).
Proof.
  intros H. unfold expand. rewrite H, fold_cnt.
  rewrite (expand_loop_at ast loops (map loop_values loops) _ 0); [reflexivity|apply at_init| |lia].
  rewrite length_all. destruct (map loop_values loops); lia.
Qed.

Lemma mapM_Ok {X Y} (f : X -> res Y) l : forall ys,
  mapM f l = Ok ys <-> Forall2 (fun x y => f x = Ok y) l ys.
Proof.
  induction l as [|x l IH]; intros ys; cbn [mapM]; split; intros H.
  - injection H as <-; constructor.
  - inversion H; reflexivity.
  - destruct (f x) as [y| |] eqn:E; try discriminate H. cbn in H.
    destruct (mapM f l) as [zs| |] eqn:E2; try discriminate H. cbn in H. injection H as <-.
    constructor; [exact E|]. apply IH. reflexivity.
  - inversion H as [|? y ? zs Hy Hz]; subst. rewrite Hy. cbn.
    apply IH in Hz. rewrite Hz. reflexivity.
Qed.

(** The items bound by one combination. *)
Lemma loop_items_spec loops : forall vals items,
  loop_items loops vals = Ok items <->
  exists itemss, Forall2 (fun lv its => make_spec_items (loop_pattern (fst lv)) (snd lv) = Ok its)
                   (combine loops vals) itemss /\ items = concat itemss.
Proof.
  induction loops as [|l loops IH]; intros vals items; cbn [loop_items combine].
  - split; [intros H; injection H as <-; exists []; split; [constructor|reflexivity]|].
    intros (x & Hx & ->). inversion Hx; reflexivity.
  - destruct vals as [|v vals].
    + split; [intros H; injection H as <-; exists []; split; [constructor|reflexivity]|].
      intros (x & Hx & ->). inversion Hx; reflexivity.
    + split.
      * intros H. destruct (make_spec_items (loop_pattern l) v) as [its| |] eqn:E; try discriminate H.
        cbn [bind] in H. destruct (loop_items loops vals) as [rest| |] eqn:E2; try discriminate H.
        cbn [bind] in H. injection H as <-. apply IH in E2 as (itss & Hf & ->).
        exists (its :: itss). split; [constructor; assumption|reflexivity].
      * intros (itss & Hf & ->). inversion Hf as [|? its ? itss' H1 H2]; subst. cbn [fst snd] in H1.
        rewrite H1. cbn [bind].
        assert (E2 : loop_items loops vals = Ok (concat itss')) by (apply IH; exists itss'; auto).
        rewrite E2. reflexivity.
Qed.
End Exp.
