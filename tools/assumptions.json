{
"C165_counts": {
"module": "AroundProps",
"assumptions": "Closed under the global context"
},
"C166_found": {
"module": "AroundProps",
"assumptions": "Closed under the global context"
},
"C166_finite": {
"module": "AroundProps",
"assumptions": "Closed under the global context"
},
"C166_all": {
"module": "AroundProps",
"assumptions": "Closed under the global context"
},
"C167_bounce": {
"module": "AroundProps",
"assumptions": "Closed under the global context"
},
"C187_sphere": {
"module": "AssignProps",
"assumptions": "Closed under the global context"
},
"C187_breaks": {
"module": "AssignProps",
"assumptions": "Closed under the global context"
},
"C187_examined": {
"module": "AssignProps",
"assumptions": "Closed under the global context"
},
"C187_radii": {
"module": "AssignProps",
"assumptions": "Closed under the global context"
},
"C188_total": {
"module": "AssignProps",
"assumptions": "Closed under the global context"
},
"C189_electrides": {
"module": "AssignProps",
"assumptions": "Closed under the global context"
},
"C190_labels_refuted": {
"module": "AssignProps",
"assumptions": "Closed under the global context"
},
"C43_assigned": {
"module": "BadelfProps",
"assumptions": "Closed under the global context"
},
"C43_only": {
"module": "BadelfProps",
"assumptions": "Closed under the global context"
},
"C43_position": {
"module": "BadelfProps",
"assumptions": "Closed under the global context"
},
"C43_grouped": {
"module": "BadelfProps",
"assumptions": "Closed under the global context"
},
"C43_totals": {
"module": "BadelfProps",
"assumptions": "Closed under the global context"
},
"C44_fractions": {
"module": "BadelfProps",
"assumptions": "Closed under the global context"
},
"C44_conserved": {
"module": "BadelfProps",
"assumptions": "Closed under the global context"
},
"C44_shares": {
"module": "BadelfProps",
"assumptions": "Closed under the global context"
},
"C44_whole": {
"module": "BadelfProps",
"assumptions": "Closed under the global context"
},
"C73_tied_refuted": {
"module": "BadelfProps",
"assumptions": "Closed under the global context"
},
"C74_label_refuted": {
"module": "BadelfProps",
"assumptions": "Closed under the global context"
},
"C75_ten_refuted": {
"module": "BadelfProps",
"assumptions": "Closed under the global context"
},
"C76_lost_refuted": {
"module": "BadelfProps",
"assumptions": "Closed under the global context"
},
"C77_voronelf_refuted": {
"module": "BadelfProps",
"assumptions": "Closed under the global context"
},
"C78_cubic": {
"module": "BadelfProps",
"assumptions": "Closed under the global context"
},
"C79_edges_refuted": {
"module": "BadelfProps",
"assumptions": "Closed under the global context"
},
"C17_never_stale": {
"module": "BaderProps",
"assumptions": "Closed under the global context"
},
"C17_order_free": {
"module": "BaderProps",
"assumptions": "Closed under the global context"
},
"C17_atom_avg": {
"module": "BaderProps",
"assumptions": "Closed under the global context"
},
"C129_atom_avg_refuted": {
"module": "BaderProps",
"assumptions": "Closed under the global context"
},
"C130_vacuum_true_refuted": {
"module": "BaderProps",
"assumptions": "Closed under the global context"
},
"C18_vacuum": {
"module": "BaderProps",
"assumptions": "Closed under the global context"
},
"C130_true_setter_refuted": {
"module": "BaderProps",
"assumptions": "Closed under the global context"
},
"C35_groups": {
"module": "BifProps",
"assumptions": "Closed under the global context"
},
"C35_dims": {
"module": "BifProps",
"assumptions": "Closed under the global context"
},
"C35_identity": {
"module": "BifProps",
"assumptions": "Closed under the global context"
},
"C36_forest": {
"module": "BifProps",
"assumptions": "Closed under the global context"
},
"C58_upper_value": {
"module": "BifProps",
"assumptions": "Closed under the global context"
},
"C146_root_refuted": {
"module": "BifProps",
"assumptions": "Closed under the global context"
},
"C261_order": {
"module": "BobjProps",
"assumptions": "Closed under the global context"
},
"C261_settings": {
"module": "BobjProps",
"assumptions": "Closed under the global context"
},
"C262_one": {
"module": "BobjProps",
"assumptions": "Closed under the global context"
},
"C265_failing": {
"module": "BobjProps",
"assumptions": "Closed under the global context"
},
"C263_method_refuted": {
"module": "BobjProps",
"assumptions": "Closed under the global context"
},
"C264_again_refuted": {
"module": "BobjProps",
"assumptions": "Closed under the global context"
},
"C116_tolerance": {
"module": "BondNearProps",
"assumptions": "Closed under the global context"
},
"C115_opposite": {
"module": "BondProps",
"assumptions": "Closed under the global context"
},
"C115_translated": {
"module": "BondProps",
"assumptions": "Closed under the global context"
},
"C115_close": {
"module": "BondProps",
"assumptions": "Closed under the global context"
},
"C115_image": {
"module": "BondProps",
"assumptions": "Closed under the global context"
},
"C115_minimal": {
"module": "BondProps",
"assumptions": "Closed under the global context"
},
"C115_least": {
"module": "BondProps",
"assumptions": "Closed under the global context"
},
"C115_sites": {
"module": "BondProps",
"assumptions": "Closed under the global context"
},
"C115_find": {
"module": "BondProps",
"assumptions": "Closed under the global context"
},
"C115_bonds": {
"module": "BondProps",
"assumptions": "Closed under the global context"
},
"C116_row": {
"module": "BondProps",
"assumptions": "Closed under the global context"
},
"C116_rows": {
"module": "BondProps",
"assumptions": "Closed under the global context"
},
"C50_equivalent_refuted": {
"module": "BondProps",
"assumptions": "Closed under the global context"
},
"C117_half_refuted": {
"module": "BondProps",
"assumptions": "Closed under the global context"
},
"C118_reverse_refuted": {
"module": "BondProps",
"assumptions": "Closed under the global context"
},
"C119_dist_refuted": {
"module": "BondProps",
"assumptions": "Closed under the global context"
},
"C170_basins": {
"module": "BuildConnProps",
"assumptions": "Closed under the global context"
},
"C170_joined": {
"module": "BuildConnProps",
"assumptions": "Closed under the global context"
},
"C168_construct": {
"module": "BuildProps",
"assumptions": "Closed under the global context"
},
"C169_graph": {
"module": "BuildProps",
"assumptions": "Closed under the global context"
},
"C169_leaves": {
"module": "BuildProps",
"assumptions": "Closed under the global context"
},
"C253_answers": {
"module": "CacheProps",
"assumptions": "Closed under the global context"
},
"C253_order": {
"module": "CacheProps",
"assumptions": "Closed under the global context"
},
"C254_types_refuted": {
"module": "CacheProps",
"assumptions": "Closed under the global context"
},
"C255_failed_refuted": {
"module": "CacheProps",
"assumptions": "Closed under the global context"
},
"C260_before": {
"module": "CacheProps",
"assumptions": "Closed under the global context"
},
"C258_spin": {
"module": "CacheProps",
"assumptions": "Closed under the global context"
},
"C256_down_refuted": {
"module": "CacheProps",
"assumptions": "Closed under the global context"
},
"C257_mean_refuted": {
"module": "CacheProps",
"assumptions": "Closed under the global context"
},
"C259_mean": {
"module": "CacheProps",
"assumptions": "Closed under the global context"
},
"C202_vasp": {
"module": "CliProps",
"assumptions": "Closed under the global context"
},
"C202_cube": {
"module": "CliProps",
"assumptions": "Closed under the global context"
},
"C202_hdf5": {
"module": "CliProps",
"assumptions": "Closed under the global context"
},
"C202_binary": {
"module": "CliProps",
"assumptions": "Closed under the global context"
},
"C202_read": {
"module": "CliProps",
"assumptions": "Closed under the global context"
},
"C203_total": {
"module": "CliProps",
"assumptions": "Closed under the global context"
},
"C205_sum": {
"module": "CliProps",
"assumptions": "Closed under the global context"
},
"C205_format": {
"module": "CliProps",
"assumptions": "Closed under the global context"
},
"C204_spin_refuted": {
"module": "CliProps",
"assumptions": "Closed under the global context"
},
"C206_vasp": {
"module": "CliProps",
"assumptions": "Closed under the global context"
},
"C206_format_refuted": {
"module": "CliProps",
"assumptions": "Closed under the global context"
},
"C207_names": {
"module": "CliProps",
"assumptions": "Closed under the global context"
},
"C207_plain": {
"module": "CliProps",
"assumptions": "Closed under the global context"
},
"C207_distinct": {
"module": "CliProps",
"assumptions": "Closed under the global context"
},
"C208_stem_refuted": {
"module": "CliProps",
"assumptions": "Closed under the global context"
},
"C208_overwritten_refuted": {
"module": "CliProps",
"assumptions": "Closed under the global context"
},
"C209_name": {
"module": "CliProps",
"assumptions": "Closed under the global context"
},
"C209_plain": {
"module": "CliProps",
"assumptions": "Closed under the global context"
},
"C209_other": {
"module": "CliProps",
"assumptions": "Closed under the global context"
},
"C210_items": {
"module": "CliProps",
"assumptions": "Closed under the global context"
},
"C210_integers": {
"module": "CliProps",
"assumptions": "Closed under the global context"
},
"C210_calls": {
"module": "CliProps",
"assumptions": "Closed under the global context"
},
"C210_species": {
"module": "CliProps",
"assumptions": "Closed under the global context"
},
"C210_literal": {
"module": "CliProps",
"assumptions": "Closed under the global context"
},
"C211_none_refuted": {
"module": "CliProps",
"assumptions": "Closed under the global context"
},
"C212_flag": {
"module": "CliProps",
"assumptions": "Closed under the global context"
},
"C212_case": {
"module": "CliProps",
"assumptions": "Closed under the global context"
},
"C212_number": {
"module": "CliProps",
"assumptions": "Closed under the global context"
},
"C37_saddles": {
"module": "ConnProps",
"assumptions": "Closed under the global context"
},
"C37_missing": {
"module": "ConnProps",
"assumptions": "Closed under the global context"
},
"C37_sound": {
"module": "ConnProps",
"assumptions": "Closed under the global context"
},
"C37_linked": {
"module": "ConnProps",
"assumptions": "Closed under the global context"
},
"C59_linked_refuted": {
"module": "ConnProps",
"assumptions": "Closed under the global context"
},
"C21_round_trips": {
"module": "CoordProps",
"assumptions": "Closed under the global context"
},
"C21_cartesian": {
"module": "CoordProps",
"assumptions": "Closed under the global context"
},
"C21_singular": {
"module": "CoordProps",
"assumptions": "Closed under the global context"
},
"C22_neighbors": {
"module": "CoordProps",
"assumptions": "Closed under the global context"
},
"C22_once": {
"module": "CoordProps",
"assumptions": "Closed under the global context"
},
"C22_distances": {
"module": "CoordProps",
"assumptions": "Closed under the global context"
},
"C22_symmetric": {
"module": "CoordProps",
"assumptions": "Closed under the global context"
},
"C22_faces": {
"module": "CoordProps",
"assumptions": "Closed under the global context"
},
"C22_faces_symmetric": {
"module": "CoordProps",
"assumptions": "Closed under the global context"
},
"C22_images": {
"module": "CoordProps",
"assumptions": "Closed under the global context"
},
"C56_entries": {
"module": "CoordProps",
"assumptions": "Closed under the global context"
},
"C56_default": {
"module": "CoordProps",
"assumptions": "Closed under the global context"
},
"C145_size_refuted": {
"module": "CoordProps",
"assumptions": "Closed under the global context"
},
"C57_bound": {
"module": "CoordProps",
"assumptions": "Closed under the global context"
},
"C57_corner": {
"module": "CoordProps",
"assumptions": "Closed under the global context"
},
"C51_radius": {
"module": "CoordProps",
"assumptions": "Closed under the global context"
},
"C51_orthogonal": {
"module": "CoordProps",
"assumptions": "Closed under the global context"
},
"C139_skewed_refuted": {
"module": "CoordProps",
"assumptions": "Closed under the global context"
},
"C52_mean": {
"module": "CoordProps",
"assumptions": "Closed under the global context"
},
"C52_invariant": {
"module": "CoordProps",
"assumptions": "Closed under the global context"
},
"C52_weighted": {
"module": "CoordProps",
"assumptions": "Closed under the global context"
},
"C52_rounding": {
"module": "CoordProps",
"assumptions": "Closed under the global context"
},
"C140_half_refuted": {
"module": "CoordProps",
"assumptions": "Closed under the global context"
},
"C141_misaligned_refuted": {
"module": "CoordProps",
"assumptions": "Closed under the global context"
},
"C01_wrap_window": {
"module": "CoreProps",
"assumptions": "Closed under the global context"
},
"C01_neighbour_in_range": {
"module": "CoreProps",
"assumptions": "Closed under the global context"
},
"C01_shift_reconstructs": {
"module": "CoreProps",
"assumptions": "Closed under the global context"
},
"C01_flat_bijection": {
"module": "CoreProps",
"assumptions": "Closed under the global context"
},
"C02_best_neighbor": {
"module": "CoreProps",
"assumptions": "Closed under the global context"
},
"C02_stays_iff_maximum": {
"module": "CoreProps",
"assumptions": "Closed under the global context"
},
"C03_maxima_exact": {
"module": "CoreProps",
"assumptions": "Closed under the global context"
},
"C03_minima_exact": {
"module": "CoreProps",
"assumptions": "Closed under the global context"
},
"C03_maximum_exists": {
"module": "CoreProps",
"assumptions": "Closed under the global context"
},
"C03_argwhere": {
"module": "CoreProps",
"assumptions": "Closed under the global context"
},
"C04_roots": {
"module": "CoreProps",
"assumptions": "Closed under the global context"
},
"C04_end_unique": {
"module": "CoreProps",
"assumptions": "Closed under the global context"
},
"C122_vacuum_pointer_refuted": {
"module": "CoreProps",
"assumptions": "Closed under the global context"
},
"C05_ongrid": {
"module": "CoreProps",
"assumptions": "Closed under the global context"
},
"C05_ascent_terminates": {
"module": "CoreProps",
"assumptions": "Closed under the global context"
},
"C06_dense_labels": {
"module": "CoreProps",
"assumptions": "Closed under the global context"
},
"C07_basin_content": {
"module": "CoreProps",
"assumptions": "Closed under the global context"
},
"C07_conservation": {
"module": "CoreProps",
"assumptions": "Closed under the global context"
},
"C15_edges": {
"module": "CoreProps",
"assumptions": "Closed under the global context"
},
"C15_feature_edges": {
"module": "CoreProps",
"assumptions": "Closed under the global context"
},
"C16_assignment": {
"module": "CoreProps",
"assumptions": "Closed under the global context"
},
"C16_orthogonal_nearest_image": {
"module": "CoreProps",
"assumptions": "Closed under the global context"
},
"C128_nearest_skewed_refuted": {
"module": "CoreProps",
"assumptions": "Closed under the global context"
},
"C30_roundtrip": {
"module": "CubeProps",
"assumptions": "Closed under the global context"
},
"C30_origin": {
"module": "CubeProps",
"assumptions": "Closed under the global context"
},
"C30_figures": {
"module": "CubeProps",
"assumptions": "Closed under the global context"
},
"C105_round": {
"module": "CubeProps",
"assumptions": "Closed under the global context"
},
"C105_exact": {
"module": "CubeProps",
"assumptions": "Closed under the global context"
},
"C105_idempotent": {
"module": "CubeProps",
"assumptions": "Closed under the global context"
},
"C105_infer": {
"module": "CubeProps",
"assumptions": "Closed under the global context"
},
"C101_uniform_refuted": {
"module": "CubeProps",
"assumptions": "Closed under the global context"
},
"C102_order_refuted": {
"module": "CubeProps",
"assumptions": "Closed under the global context"
},
"C103_origin_refuted": {
"module": "CubeProps",
"assumptions": "Closed under the global context"
},
"C104_orbital_refuted": {
"module": "CubeProps",
"assumptions": "Closed under the global context"
},
"C100_origin_refuted": {
"module": "CubeProps",
"assumptions": "Closed under the global context"
},
"C38_total": {
"module": "CycleProps",
"assumptions": "Closed under the global context"
},
"C38_rank": {
"module": "CycleProps",
"assumptions": "Closed under the global context"
},
"C38_outside": {
"module": "CycleProps",
"assumptions": "Closed under the global context"
},
"C38_groups": {
"module": "CycleProps",
"assumptions": "Closed under the global context"
},
"C38_fresh": {
"module": "CycleProps",
"assumptions": "Closed under the global context"
},
"C120_merge_refuted": {
"module": "CycleProps",
"assumptions": "Closed under the global context"
},
"C40_round_trip": {
"module": "DictProps",
"assumptions": "Closed under the global context"
},
"C40_stable": {
"module": "DictProps",
"assumptions": "Closed under the global context"
},
"C63_features_refuted": {
"module": "DictProps",
"assumptions": "Closed under the global context"
},
"C63_once_refuted": {
"module": "DictProps",
"assumptions": "Closed under the global context"
},
"C45_labels": {
"module": "DimProps",
"assumptions": "Closed under the global context"
},
"C45_dimension": {
"module": "DimProps",
"assumptions": "Closed under the global context"
},
"C45_sound": {
"module": "DimProps",
"assumptions": "Closed under the global context"
},
"C45_monotone": {
"module": "DimProps",
"assumptions": "Closed under the global context"
},
"C45_search": {
"module": "DimProps",
"assumptions": "Closed under the global context"
},
"C45_cutoffs": {
"module": "DimProps",
"assumptions": "Closed under the global context"
},
"C80_five_refuted": {
"module": "DimProps",
"assumptions": "Closed under the global context"
},
"C81_stair_refuted": {
"module": "DimProps",
"assumptions": "Closed under the global context"
},
"C82_highest_refuted": {
"module": "DimProps",
"assumptions": "Closed under the global context"
},
"C83_none_refuted": {
"module": "DimProps",
"assumptions": "Closed under the global context"
},
"C84_edge_refuted": {
"module": "DimProps",
"assumptions": "Closed under the global context"
},
"C32_dists": {
"module": "EnvProps",
"assumptions": "Closed under the global context"
},
"C32_right_angles": {
"module": "EnvProps",
"assumptions": "Closed under the global context"
},
"C32_nearest": {
"module": "EnvProps",
"assumptions": "Closed under the global context"
},
"C32_covalent": {
"module": "EnvProps",
"assumptions": "Closed under the global context"
},
"C32_covalent_fails": {
"module": "EnvProps",
"assumptions": "Closed under the global context"
},
"C32_all": {
"module": "EnvProps",
"assumptions": "Closed under the global context"
},
"C112_skew_refuted": {
"module": "EnvProps",
"assumptions": "Closed under the global context"
},
"C113_far_refuted": {
"module": "EnvProps",
"assumptions": "Closed under the global context"
},
"C114_on_atom_refuted": {
"module": "EnvProps",
"assumptions": "Closed under the global context"
},
"C220_listed": {
"module": "FacetProps",
"assumptions": "Closed under the global context"
},
"C220_opposite": {
"module": "FacetProps",
"assumptions": "Closed under the global context"
},
"C221_reduced": {
"module": "FacetProps",
"assumptions": "Closed under the global context"
},
"C221_orthogonal": {
"module": "FacetProps",
"assumptions": "Closed under the global context"
},
"C222_skew_refuted": {
"module": "FacetProps",
"assumptions": "Closed under the global context"
},
"C223_cross": {
"module": "FacetProps",
"assumptions": "Closed under the global context"
},
"C223_area": {
"module": "FacetProps",
"assumptions": "Closed under the global context"
},
"C223_start": {
"module": "FacetProps",
"assumptions": "Closed under the global context"
},
"C47_labels": {
"module": "FeatLabProps",
"assumptions": "Closed under the global context"
},
"C47_conserved": {
"module": "FeatLabProps",
"assumptions": "Closed under the global context"
},
"C47_parts": {
"module": "FeatLabProps",
"assumptions": "Closed under the global context"
},
"C66_tuple_refuted": {
"module": "FeatLabProps",
"assumptions": "Closed under the global context"
},
"C23_label": {
"module": "GlabProps",
"assumptions": "Closed under the global context"
},
"C23_structure": {
"module": "GlabProps",
"assumptions": "Closed under the global context"
},
"C23_scipy": {
"module": "GlabProps",
"assumptions": "Closed under the global context"
},
"C85_full_refuted": {
"module": "GlabProps",
"assumptions": "Closed under the global context"
},
"C24_caches": {
"module": "GobjProps",
"assumptions": "Closed under the global context"
},
"C24_made": {
"module": "GobjProps",
"assumptions": "Closed under the global context"
},
"C24_neighbours": {
"module": "GobjProps",
"assumptions": "Closed under the global context"
},
"C24_supercell": {
"module": "GobjProps",
"assumptions": "Closed under the global context"
},
"C24_copy": {
"module": "GobjProps",
"assumptions": "Closed under the global context"
},
"C49_charge": {
"module": "GobjProps",
"assumptions": "Closed under the global context"
},
"C49_elf": {
"module": "GobjProps",
"assumptions": "Closed under the global context"
},
"C49_linear": {
"module": "GobjProps",
"assumptions": "Closed under the global context"
},
"C49_keys": {
"module": "GobjProps",
"assumptions": "Closed under the global context"
},
"C49_sum": {
"module": "GobjProps",
"assumptions": "Closed under the global context"
},
"C86_kept": {
"module": "GobjProps",
"assumptions": "Closed under the global context"
},
"C87_volume": {
"module": "GobjProps",
"assumptions": "Closed under the global context"
},
"C88_spin": {
"module": "GobjProps",
"assumptions": "Closed under the global context"
},
"C89_split": {
"module": "GobjProps",
"assumptions": "Closed under the global context"
},
"C90_regrid": {
"module": "GobjProps",
"assumptions": "Closed under the global context"
},
"C91_dists_refuted": {
"module": "GobjProps",
"assumptions": "Closed under the global context"
},
"C92_augmentation_refuted": {
"module": "GobjProps",
"assumptions": "Closed under the global context"
},
"C86_coeffs_refuted": {
"module": "GobjProps",
"assumptions": "Closed under the global context"
},
"C87_volume_refuted": {
"module": "GobjProps",
"assumptions": "Closed under the global context"
},
"C88_spin_refuted": {
"module": "GobjProps",
"assumptions": "Closed under the global context"
},
"C89_split_refuted": {
"module": "GobjProps",
"assumptions": "Closed under the global context"
},
"C90_regrid_refuted": {
"module": "GobjProps",
"assumptions": "Closed under the global context"
},
"C24_dists": {
"module": "GobjProps",
"assumptions": "Closed under the global context"
},
"C244_basins": {
"module": "GuiProps",
"assumptions": "Closed under the global context"
},
"C244_start": {
"module": "GuiProps",
"assumptions": "Closed under the global context"
},
"C244_atoms": {
"module": "GuiProps",
"assumptions": "Closed under the global context"
},
"C244_parent": {
"module": "GuiProps",
"assumptions": "Closed under the global context"
},
"C244_child": {
"module": "GuiProps",
"assumptions": "Closed under the global context"
},
"C245_commit": {
"module": "GuiProps",
"assumptions": "Closed under the global context"
},
"C245_species": {
"module": "GuiProps",
"assumptions": "Closed under the global context"
},
"C245_colors": {
"module": "GuiProps",
"assumptions": "Closed under the global context"
},
"C245_species_color": {
"module": "GuiProps",
"assumptions": "Closed under the global context"
},
"C246_same_refuted": {
"module": "GuiProps",
"assumptions": "Closed under the global context"
},
"C247_edit": {
"module": "GuiProps",
"assumptions": "Closed under the global context"
},
"C247_edit_reference": {
"module": "GuiProps",
"assumptions": "Closed under the global context"
},
"C247_calm": {
"module": "GuiProps",
"assumptions": "Closed under the global context"
},
"C248_blank_refuted": {
"module": "GuiProps",
"assumptions": "Closed under the global context"
},
"C249_error_refuted": {
"module": "GuiProps",
"assumptions": "Closed under the global context"
},
"C249_edit_refuted": {
"module": "GuiProps",
"assumptions": "Closed under the global context"
},
"C250_values": {
"module": "GuiProps",
"assumptions": "Closed under the global context"
},
"C250_named": {
"module": "GuiProps",
"assumptions": "Closed under the global context"
},
"C250_ending": {
"module": "GuiProps",
"assumptions": "Closed under the global context"
},
"C251_charge_refuted": {
"module": "GuiProps",
"assumptions": "Closed under the global context"
},
"C251_witness_refuted": {
"module": "GuiProps",
"assumptions": "Closed under the global context"
},
"C252_cancel_refuted": {
"module": "GuiProps",
"assumptions": "Closed under the global context"
},
"C252_directory_refuted": {
"module": "GuiProps",
"assumptions": "Closed under the global context"
},
"C25_trilinear": {
"module": "InterpProps",
"assumptions": "Closed under the global context"
},
"C25_grid_points": {
"module": "InterpProps",
"assumptions": "Closed under the global context"
},
"C25_bounded": {
"module": "InterpProps",
"assumptions": "Closed under the global context"
},
"C25_periodic": {
"module": "InterpProps",
"assumptions": "Closed under the global context"
},
"C25_nearest": {
"module": "InterpProps",
"assumptions": "Closed under the global context"
},
"C25_points": {
"module": "InterpProps",
"assumptions": "Closed under the global context"
},
"C25_slice": {
"module": "InterpProps",
"assumptions": "Closed under the global context"
},
"C134_far_refuted": {
"module": "InterpProps",
"assumptions": "Closed under the global context"
},
"C135_nearest_half_refuted": {
"module": "InterpProps",
"assumptions": "Closed under the global context"
},
"C26_weights": {
"module": "InterpProps",
"assumptions": "Closed under the global context"
},
"C26_blend": {
"module": "InterpProps",
"assumptions": "Closed under the global context"
},
"C26_bounded": {
"module": "InterpProps",
"assumptions": "Closed under the global context"
},
"C26_constant": {
"module": "InterpProps",
"assumptions": "Closed under the global context"
},
"C26_periodic": {
"module": "InterpProps",
"assumptions": "Closed under the global context"
},
"C275_labeler": {
"module": "KwProps",
"assumptions": "Closed under the global context"
},
"C275_accepts": {
"module": "KwProps",
"assumptions": "Closed under the global context"
},
"C276_spin": {
"module": "KwProps",
"assumptions": "Closed under the global context"
},
"C276_badelf": {
"module": "KwProps",
"assumptions": "Closed under the global context"
},
"C276_spin_badelf": {
"module": "KwProps",
"assumptions": "Closed under the global context"
},
"C277_ignored": {
"module": "KwProps",
"assumptions": "Closed under the global context"
},
"C277_reported_refuted": {
"module": "KwProps",
"assumptions": "Closed under the global context"
},
"C278_no_effect": {
"module": "KwProps",
"assumptions": "Closed under the global context"
},
"C278_depth_used_refuted": {
"module": "KwProps",
"assumptions": "Closed under the global context"
},
"C20_merging": {
"module": "LabelsProps",
"assumptions": "Closed under the global context"
},
"C20_profile_test": {
"module": "LabelsProps",
"assumptions": "Closed under the global context"
},
"C132_vacuum_hang_refuted": {
"module": "LabelsProps",
"assumptions": "Closed under the global context"
},
"C133_profile_raises_refuted": {
"module": "LabelsProps",
"assumptions": "Closed under the global context"
},
"C05_run": {
"module": "LabelsProps",
"assumptions": "Closed under the global context"
},
"C07_run_conserves": {
"module": "LabelsProps",
"assumptions": "Closed under the global context"
},
"C08_aligned_iff_sorted": {
"module": "LabelsProps",
"assumptions": "Closed under the global context"
},
"C123_positions_swapped_refuted": {
"module": "LabelsProps",
"assumptions": "Closed under the global context"
},
"C148_shells": {
"module": "MarkProps",
"assumptions": "Closed under the global context"
},
"C148_total": {
"module": "MarkProps",
"assumptions": "Closed under the global context"
},
"C149_bonds": {
"module": "MarkProps",
"assumptions": "Closed under the global context"
},
"C149_unique": {
"module": "MarkProps",
"assumptions": "Closed under the global context"
},
"C149_total": {
"module": "MarkProps",
"assumptions": "Closed under the global context"
},
"C150_sound": {
"module": "MarkProps",
"assumptions": "Closed under the global context"
},
"C150_complete": {
"module": "MarkProps",
"assumptions": "Closed under the global context"
},
"C150_total": {
"module": "MarkProps",
"assumptions": "Closed under the global context"
},
"C151_bare": {
"module": "MarkProps",
"assumptions": "Closed under the global context"
},
"C151_depth_unique": {
"module": "MarkProps",
"assumptions": "Closed under the global context"
},
"C151_total": {
"module": "MarkProps",
"assumptions": "Closed under the global context"
},
"C147_assigned": {
"module": "MarkProps",
"assumptions": "Closed under the global context"
},
"C147_labels": {
"module": "MarkProps",
"assumptions": "Closed under the global context"
},
"C147_atoms": {
"module": "MarkProps",
"assumptions": "Closed under the global context"
},
"C152_uncombined_refuted": {
"module": "MarkProps",
"assumptions": "Closed under the global context"
},
"C153_separate_refuted": {
"module": "MarkProps",
"assumptions": "Closed under the global context"
},
"C154_isolated_refuted": {
"module": "MarkProps",
"assumptions": "Closed under the global context"
},
"C272_nearest_refuted": {
"module": "MarkProps",
"assumptions": "Closed under the global context"
},
"C273_kinds": {
"module": "MarkProps",
"assumptions": "Closed under the global context"
},
"C13_gradients": {
"module": "NearProps",
"assumptions": "Closed under the global context"
},
"C13_climb": {
"module": "NearProps",
"assumptions": "Closed under the global context"
},
"C13_pass": {
"module": "NearProps",
"assumptions": "Closed under the global context"
},
"C13_run": {
"module": "NearProps",
"assumptions": "Closed under the global context"
},
"C13_conserves": {
"module": "NearProps",
"assumptions": "Closed under the global context"
},
"C124_vacuum_hang_refuted": {
"module": "NearProps",
"assumptions": "Closed under the global context"
},
"C14_conserves": {
"module": "NearWeightProps",
"assumptions": "Closed under the global context"
},
"C14_shares": {
"module": "NearWeightProps",
"assumptions": "Closed under the global context"
},
"C125_vacuum_scale_refuted": {
"module": "NearWeightProps",
"assumptions": "Closed under the global context"
},
"C126_order_refuted": {
"module": "NearWeightProps",
"assumptions": "Closed under the global context"
},
"C127_edge_maximum_refuted": {
"module": "NearWeightProps",
"assumptions": "Closed under the global context"
},
"C39_empty": {
"module": "NodesProps",
"assumptions": "Closed under the global context"
},
"C39_add": {
"module": "NodesProps",
"assumptions": "Closed under the global context"
},
"C39_remove": {
"module": "NodesProps",
"assumptions": "Closed under the global context"
},
"C39_remove_root": {
"module": "NodesProps",
"assumptions": "Closed under the global context"
},
"C39_collapse": {
"module": "NodesProps",
"assumptions": "Closed under the global context"
},
"C39_branches": {
"module": "NodesProps",
"assumptions": "Closed under the global context"
},
"C39_leaves": {
"module": "NodesProps",
"assumptions": "Closed under the global context"
},
"C39_prune": {
"module": "NodesProps",
"assumptions": "Closed under the global context"
},
"C39_combine": {
"module": "NodesProps",
"assumptions": "Closed under the global context"
},
"C39_history": {
"module": "NodesProps",
"assumptions": "Closed under the global context"
},
"C39_build": {
"module": "NodesProps",
"assumptions": "Closed under the global context"
},
"C60_roots_refuted": {
"module": "NodesProps",
"assumptions": "Closed under the global context"
},
"C60_depth_refuted": {
"module": "NodesProps",
"assumptions": "Closed under the global context"
},
"C61_stale_refuted": {
"module": "NodesProps",
"assumptions": "Closed under the global context"
},
"C62_overlap_refuted": {
"module": "NodesProps",
"assumptions": "Closed under the global context"
},
"C241_least": {
"module": "OverProps",
"assumptions": "Closed under the global context"
},
"C241_exact": {
"module": "OverProps",
"assumptions": "Closed under the global context"
},
"C241_linear": {
"module": "OverProps",
"assumptions": "Closed under the global context"
},
"C242_pointers": {
"module": "OverProps",
"assumptions": "Closed under the global context"
},
"C242_climb": {
"module": "OverProps",
"assumptions": "Closed under the global context"
},
"C243_unpack_refuted": {
"module": "OverProps",
"assumptions": "Closed under the global context"
},
"C42_volume": {
"module": "PlaneProps",
"assumptions": "Closed under the global context"
},
"C42_meaning": {
"module": "PlaneProps",
"assumptions": "Closed under the global context"
},
"C42_range": {
"module": "PlaneProps",
"assumptions": "Closed under the global context"
},
"C42_monotone": {
"module": "PlaneProps",
"assumptions": "Closed under the global context"
},
"C42_both_sides": {
"module": "PlaneProps",
"assumptions": "Closed under the global context"
},
"C42_one_side": {
"module": "PlaneProps",
"assumptions": "Closed under the global context"
},
"C69_zero_normal_refuted": {
"module": "PlaneProps",
"assumptions": "Closed under the global context"
},
"C70_translations": {
"module": "PlaneProps",
"assumptions": "Closed under the global context"
},
"C70_volume": {
"module": "PlaneProps",
"assumptions": "Closed under the global context"
},
"C70_kept": {
"module": "PlaneProps",
"assumptions": "Closed under the global context"
},
"C71_whole_cell_refuted": {
"module": "PlaneProps",
"assumptions": "Closed under the global context"
},
"C72_surface": {
"module": "PlaneProps",
"assumptions": "Closed under the global context"
},
"C224_heights": {
"module": "PlotProps",
"assumptions": "Closed under the global context"
},
"C225_lines": {
"module": "PlotProps",
"assumptions": "Closed under the global context"
},
"C225_apart": {
"module": "PlotProps",
"assumptions": "Closed under the global context"
},
"C225_siblings": {
"module": "PlotProps",
"assumptions": "Closed under the global context"
},
"C226_boxes": {
"module": "PlotProps",
"assumptions": "Closed under the global context"
},
"C266_pruned": {
"module": "PruneProps",
"assumptions": "Closed under the global context"
},
"C266_runs": {
"module": "PruneProps",
"assumptions": "Closed under the global context"
},
"C267_combined": {
"module": "PruneProps",
"assumptions": "Closed under the global context"
},
"C267_built": {
"module": "PruneProps",
"assumptions": "Closed under the global context"
},
"C41_points": {
"module": "RadProps",
"assumptions": "Closed under the global context"
},
"C41_rule": {
"module": "RadProps",
"assumptions": "Closed under the global context"
},
"C41_inside": {
"module": "RadProps",
"assumptions": "Closed under the global context"
},
"C41_all": {
"module": "RadProps",
"assumptions": "Closed under the global context"
},
"C41_classes": {
"module": "RadProps",
"assumptions": "Closed under the global context"
},
"C67_ends_refuted": {
"module": "RadProps",
"assumptions": "Closed under the global context"
},
"C68_unlabelled_refuted": {
"module": "RadProps",
"assumptions": "Closed under the global context"
},
"C27_fit": {
"module": "RefineFitProps",
"assumptions": "Closed under the global context"
},
"C27_refine": {
"module": "RefineProps",
"assumptions": "Closed under the global context"
},
"C27_symmetric": {
"module": "RefineProps",
"assumptions": "Closed under the global context"
},
"C27_maxima": {
"module": "RefineProps",
"assumptions": "Closed under the global context"
},
"C136_step_refuted": {
"module": "RefineProps",
"assumptions": "Closed under the global context"
},
"C137_offgrid_refuted": {
"module": "RefineProps",
"assumptions": "Closed under the global context"
},
"C184_bader": {
"module": "ReportOxProps",
"assumptions": "Closed under the global context"
},
"C184_badelf": {
"module": "ReportOxProps",
"assumptions": "Closed under the global context"
},
"C184_labeler": {
"module": "ReportOxProps",
"assumptions": "Closed under the global context"
},
"C184_total": {
"module": "ReportOxProps",
"assumptions": "Closed under the global context"
},
"C184_agree": {
"module": "ReportOxProps",
"assumptions": "Closed under the global context"
},
"C185_sites": {
"module": "ReportOxProps",
"assumptions": "Closed under the global context"
},
"C186_surface": {
"module": "ReportOxProps",
"assumptions": "Closed under the global context"
},
"C178_smallest": {
"module": "ReportProps",
"assumptions": "Closed under the global context"
},
"C178_absent": {
"module": "ReportProps",
"assumptions": "Closed under the global context"
},
"C178_done": {
"module": "ReportProps",
"assumptions": "Closed under the global context"
},
"C179_indices": {
"module": "ReportProps",
"assumptions": "Closed under the global context"
},
"C179_once": {
"module": "ReportProps",
"assumptions": "Closed under the global context"
},
"C179_defined": {
"module": "ReportProps",
"assumptions": "Closed under the global context"
},
"C179_max": {
"module": "ReportProps",
"assumptions": "Closed under the global context"
},
"C180_electride_refuted": {
"module": "ReportProps",
"assumptions": "Closed under the global context"
},
"C180_alone": {
"module": "ReportProps",
"assumptions": "Closed under the global context"
},
"C181_max_refuted": {
"module": "ReportProps",
"assumptions": "Closed under the global context"
},
"C182_structure": {
"module": "ReportProps",
"assumptions": "Closed under the global context"
},
"C182_prefix": {
"module": "ReportProps",
"assumptions": "Closed under the global context"
},
"C182_labels": {
"module": "ReportProps",
"assumptions": "Closed under the global context"
},
"C183_covalent": {
"module": "ReportProps",
"assumptions": "Closed under the global context"
},
"C213_centred": {
"module": "RingProps",
"assumptions": "Closed under the global context"
},
"C214_few": {
"module": "RingProps",
"assumptions": "Closed under the global context"
},
"C214_three": {
"module": "RingProps",
"assumptions": "Closed under the global context"
},
"C214_plane": {
"module": "RingProps",
"assumptions": "Closed under the global context"
},
"C214_near": {
"module": "RingProps",
"assumptions": "Closed under the global context"
},
"C214_cage": {
"module": "RingProps",
"assumptions": "Closed under the global context"
},
"C156_offsets": {
"module": "SaddleProps",
"assumptions": "Closed under the global context"
},
"C156_connections": {
"module": "SaddleProps",
"assumptions": "Closed under the global context"
},
"C156_shift_index": {
"module": "SaddleProps",
"assumptions": "Closed under the global context"
},
"C157_large": {
"module": "SaddleProps",
"assumptions": "Closed under the global context"
},
"C157_small": {
"module": "SaddleProps",
"assumptions": "Closed under the global context"
},
"C157_unique": {
"module": "SaddleProps",
"assumptions": "Closed under the global context"
},
"C157_marked": {
"module": "SaddleProps",
"assumptions": "Closed under the global context"
},
"C158_found": {
"module": "SaddleProps",
"assumptions": "Closed under the global context"
},
"C158_alone": {
"module": "SaddleProps",
"assumptions": "Closed under the global context"
},
"C159_ties_refuted": {
"module": "SaddleProps",
"assumptions": "Closed under the global context"
},
"C160_vacuum_refuted": {
"module": "SaddleProps",
"assumptions": "Closed under the global context"
},
"C46_shares": {
"module": "ShareProps",
"assumptions": "Closed under the global context"
},
"C46_conserved": {
"module": "ShareProps",
"assumptions": "Closed under the global context"
},
"C64_nearest_refuted": {
"module": "ShareProps",
"assumptions": "Closed under the global context"
},
"C64_alone_refuted": {
"module": "ShareProps",
"assumptions": "Closed under the global context"
},
"C65_pauling_refuted": {
"module": "ShareProps",
"assumptions": "Closed under the global context"
},
"C65_proportional": {
"module": "ShareProps",
"assumptions": "Closed under the global context"
},
"C48_sum": {
"module": "SpinProps",
"assumptions": "Closed under the global context"
},
"C48_shared": {
"module": "SpinProps",
"assumptions": "Closed under the global context"
},
"C48_alone": {
"module": "SpinProps",
"assumptions": "Closed under the global context"
},
"C48_routes": {
"module": "SpinProps",
"assumptions": "Closed under the global context"
},
"C48_names": {
"module": "SpinProps",
"assumptions": "Closed under the global context"
},
"C48_aligned": {
"module": "SpinProps",
"assumptions": "Closed under the global context"
},
"C48_atoms": {
"module": "SpinProps",
"assumptions": "Closed under the global context"
},
"C48_electrides": {
"module": "SpinProps",
"assumptions": "Closed under the global context"
},
"C48_equal": {
"module": "SpinProps",
"assumptions": "Closed under the global context"
},
"C48_rounded": {
"module": "SpinProps",
"assumptions": "Closed under the global context"
},
"C48_total": {
"module": "SpinProps",
"assumptions": "Closed under the global context"
},
"C48_total_listed": {
"module": "SpinProps",
"assumptions": "Closed under the global context"
},
"C121_equal_spin_refuted": {
"module": "SpinProps",
"assumptions": "Closed under the global context"
},
"C161_versions": {
"module": "SplitProps",
"assumptions": "Closed under the global context"
},
"C161_disjoint": {
"module": "SplitProps",
"assumptions": "Closed under the global context"
},
"C161_tree": {
"module": "SplitProps",
"assumptions": "Closed under the global context"
},
"C162_atoms": {
"module": "SplitProps",
"assumptions": "Closed under the global context"
},
"C162_listed": {
"module": "SplitProps",
"assumptions": "Closed under the global context"
},
"C163_atoms_refuted": {
"module": "SplitProps",
"assumptions": "Closed under the global context"
},
"C164_empty_refuted": {
"module": "SplitProps",
"assumptions": "Closed under the global context"
},
"C31_unique": {
"module": "StructProps",
"assumptions": "Closed under the global context"
},
"C31_keep": {
"module": "StructProps",
"assumptions": "Closed under the global context"
},
"C31_ignore": {
"module": "StructProps",
"assumptions": "Closed under the global context"
},
"C106_ignore_refuted": {
"module": "StructProps",
"assumptions": "Closed under the global context"
},
"C110_labels_refuted": {
"module": "StructProps",
"assumptions": "Closed under the global context"
},
"C33_perpendicular": {
"module": "StructProps",
"assumptions": "Closed under the global context"
},
"C33_unit": {
"module": "StructProps",
"assumptions": "Closed under the global context"
},
"C107_direction_refuted": {
"module": "StructProps",
"assumptions": "Closed under the global context"
},
"C33_zero": {
"module": "StructProps",
"assumptions": "Closed under the global context"
},
"C108_wrapped": {
"module": "StructProps",
"assumptions": "Closed under the global context"
},
"C108_kept": {
"module": "StructProps",
"assumptions": "Closed under the global context"
},
"C109_mutates_refuted": {
"module": "StructProps",
"assumptions": "Closed under the global context"
},
"C111_merge_refuted": {
"module": "StructProps",
"assumptions": "Closed under the global context"
},
"C279_bader": {
"module": "SummProps",
"assumptions": "Closed under the global context"
},
"C280_states": {
"module": "SummProps",
"assumptions": "Closed under the global context"
},
"C280_written_refuted": {
"module": "SummProps",
"assumptions": "Closed under the global context"
},
"C281_badelf": {
"module": "SummProps",
"assumptions": "Closed under the global context"
},
"C282_spin": {
"module": "SummProps",
"assumptions": "Closed under the global context"
},
"C283_lost": {
"module": "SummProps",
"assumptions": "Closed under the global context"
},
"C283_reported_refuted": {
"module": "SummProps",
"assumptions": "Closed under the global context"
},
"C284_labeler": {
"module": "SummProps",
"assumptions": "Closed under the global context"
},
"C284_spin": {
"module": "SummProps",
"assumptions": "Closed under the global context"
},
"C285_used_refuted": {
"module": "SummProps",
"assumptions": "Closed under the global context"
},
"C286_unreported": {
"module": "SummProps",
"assumptions": "Closed under the global context"
},
"C286_complete_refuted": {
"module": "SummProps",
"assumptions": "Closed under the global context"
},
"C34_disjoint": {
"module": "SurfaceProps",
"assumptions": "Closed under the global context"
},
"C34_one_file_per_index": {
"module": "SurfaceProps",
"assumptions": "Closed under the global context"
},
"C34_sum": {
"module": "SurfaceProps",
"assumptions": "Closed under the global context"
},
"C34_partition": {
"module": "SurfaceProps",
"assumptions": "Closed under the global context"
},
"C34_integral": {
"module": "SurfaceProps",
"assumptions": "Closed under the global context"
},
"C34_species": {
"module": "SurfaceProps",
"assumptions": "Closed under the global context"
},
"C138_badelf_refuted": {
"module": "SurfaceProps",
"assumptions": "Closed under the global context"
},
"C19_surface": {
"module": "SurfaceProps",
"assumptions": "Closed under the global context"
},
"C131_vacuum_refuted": {
"module": "SurfaceProps",
"assumptions": "Closed under the global context"
},
"C268_fresh": {
"module": "SymProps",
"assumptions": "Closed under the global context"
},
"C268_pair": {
"module": "SymProps",
"assumptions": "Closed under the global context"
},
"C269_ignored": {
"module": "SymProps",
"assumptions": "Closed under the global context"
},
"C274_unnoticed": {
"module": "SymProps",
"assumptions": "Closed under the global context"
},
"C269_settings_used_refuted": {
"module": "SymProps",
"assumptions": "Closed under the global context"
},
"C270_data_current_refuted": {
"module": "SymProps",
"assumptions": "Closed under the global context"
},
"C271_failure_repeats_refuted": {
"module": "SymProps",
"assumptions": "Closed under the global context"
},
"C274_edit_noticed_refuted": {
"module": "SymProps",
"assumptions": "Closed under the global context"
},
"C215_atoms": {
"module": "TsvProps",
"assumptions": "Closed under the global context"
},
"C215_totals": {
"module": "TsvProps",
"assumptions": "Closed under the global context"
},
"C215_lengths": {
"module": "TsvProps",
"assumptions": "Closed under the global context"
},
"C216_basins": {
"module": "TsvProps",
"assumptions": "Closed under the global context"
},
"C216_missing": {
"module": "TsvProps",
"assumptions": "Closed under the global context"
},
"C216_negative": {
"module": "TsvProps",
"assumptions": "Closed under the global context"
},
"C217_table": {
"module": "TsvProps",
"assumptions": "Closed under the global context"
},
"C217_spin": {
"module": "TsvProps",
"assumptions": "Closed under the global context"
},
"C218_paths": {
"module": "TsvProps",
"assumptions": "Closed under the global context"
},
"C219_text_refuted": {
"module": "TsvProps",
"assumptions": "Closed under the global context"
},
"C09_history": {
"module": "UnionProps",
"assumptions": "Closed under the global context"
},
"C09_root_mask_history": {
"module": "UnionProps",
"assumptions": "Closed under the global context"
},
"C09_object_groups": {
"module": "UnionProps",
"assumptions": "Closed under the global context"
},
"C09_unseen_find_raises": {
"module": "UnionProps",
"assumptions": "Closed under the global context"
},
"C10_shift_history": {
"module": "UnionProps",
"assumptions": "Closed under the global context"
},
"C10_union_step": {
"module": "UnionProps",
"assumptions": "Closed under the global context"
},
"C53_concurrent_compression": {
"module": "UnionProps",
"assumptions": "Closed under the global context"
},
"C53_schedule_independent": {
"module": "UnionProps",
"assumptions": "Closed under the global context"
},
"C28_roundtrip": {
"module": "VaspProps",
"assumptions": "Closed under the global context"
},
"C28_total": {
"module": "VaspProps",
"assumptions": "Closed under the global context"
},
"C28_exact": {
"module": "VaspProps",
"assumptions": "Closed under the global context"
},
"C29_field": {
"module": "VaspProps",
"assumptions": "Closed under the global context"
},
"C93_carry_refuted": {
"module": "VaspProps",
"assumptions": "Closed under the global context"
},
"C94_width_refuted": {
"module": "VaspProps",
"assumptions": "Closed under the global context"
},
"C95_augmentation_refuted": {
"module": "VaspProps",
"assumptions": "Closed under the global context"
},
"C96_noncollinear_refuted": {
"module": "VaspProps",
"assumptions": "Closed under the global context"
},
"C97_vasp4_refuted": {
"module": "VaspProps",
"assumptions": "Closed under the global context"
},
"C98_newline_refuted": {
"module": "VaspProps",
"assumptions": "Closed under the global context"
},
"C99_cartesian_refuted": {
"module": "VaspProps",
"assumptions": "Closed under the global context"
},
"C99_volume_refuted": {
"module": "VaspProps",
"assumptions": "Closed under the global context"
},
"C155_vector": {
"module": "VectorProps",
"assumptions": "Closed under the global context"
},
"C227_images": {
"module": "ViewProps",
"assumptions": "Closed under the global context"
},
"C227_once": {
"module": "ViewProps",
"assumptions": "Closed under the global context"
},
"C228_camera": {
"module": "ViewProps",
"assumptions": "Closed under the global context"
},
"C229_lines": {
"module": "ViewProps",
"assumptions": "Closed under the global context"
},
"C230_aligned": {
"module": "ViewProps",
"assumptions": "Closed under the global context"
},
"C230_length": {
"module": "ViewProps",
"assumptions": "Closed under the global context"
},
"C231_shown": {
"module": "ViewProps",
"assumptions": "Closed under the global context"
},
"C231_initial": {
"module": "ViewProps",
"assumptions": "Closed under the global context"
},
"C233_ordered": {
"module": "ViewProps",
"assumptions": "Closed under the global context"
},
"C233_iso": {
"module": "ViewProps",
"assumptions": "Closed under the global context"
},
"C233_taken": {
"module": "ViewProps",
"assumptions": "Closed under the global context"
},
"C233_start": {
"module": "ViewProps",
"assumptions": "Closed under the global context"
},
"C234_range_refuted": {
"module": "ViewProps",
"assumptions": "Closed under the global context"
},
"C231_below": {
"module": "ViewProps",
"assumptions": "Closed under the global context"
},
"C232_hidden_refuted": {
"module": "ViewProps",
"assumptions": "Closed under the global context"
},
"C235_cut": {
"module": "ViewProps",
"assumptions": "Closed under the global context"
},
"C235_near": {
"module": "ViewProps",
"assumptions": "Closed under the global context"
},
"C236_sliced_refuted": {
"module": "ViewProps",
"assumptions": "Closed under the global context"
},
"C237_fits_refuted": {
"module": "ViewProps",
"assumptions": "Closed under the global context"
},
"C238_fits": {
"module": "ViewProps",
"assumptions": "Closed under the global context"
},
"C239_visible": {
"module": "ViewProps",
"assumptions": "Closed under the global context"
},
"C239_colors": {
"module": "ViewProps",
"assumptions": "Closed under the global context"
},
"C239_radii": {
"module": "ViewProps",
"assumptions": "Closed under the global context"
},
"C239_start": {
"module": "ViewProps",
"assumptions": "Closed under the global context"
},
"C239_positive": {
"module": "ViewProps",
"assumptions": "Closed under the global context"
},
"C239_table": {
"module": "ViewProps",
"assumptions": "Closed under the global context"
},
"C240_hidden_refuted": {
"module": "ViewProps",
"assumptions": "Closed under the global context"
},
"C176_along_refuted": {
"module": "VorExProps",
"assumptions": "Closed under the global context"
},
"C177_bounding_refuted": {
"module": "VorExProps",
"assumptions": "Closed under the global context"
},
"C171_sorted": {
"module": "VorProps",
"assumptions": "Closed under the global context"
},
"C171_considered": {
"module": "VorProps",
"assumptions": "Closed under the global context"
},
"C171_done": {
"module": "VorProps",
"assumptions": "Closed under the global context"
},
"C173_flags": {
"module": "VorProps",
"assumptions": "Closed under the global context"
},
"C172_types": {
"module": "VorProps",
"assumptions": "Closed under the global context"
},
"C172_result": {
"module": "VorProps",
"assumptions": "Closed under the global context"
},
"C174_half": {
"module": "VorProps",
"assumptions": "Closed under the global context"
},
"C174_ends": {
"module": "VorProps",
"assumptions": "Closed under the global context"
},
"C175_done": {
"module": "VorProps",
"assumptions": "Closed under the global context"
},
"C174_plane": {
"module": "VorProps",
"assumptions": "Closed under the global context"
},
"C11_conserves": {
"module": "WeightProps",
"assumptions": "Closed under the global context"
},
"C12_labels": {
"module": "WeightProps",
"assumptions": "Closed under the global context"
},
"C08_weight_aligned": {
"module": "WeightProps",
"assumptions": "Closed under the global context"
},
"C54_flux_rule": {
"module": "WeightProps",
"assumptions": "Closed under the global context"
},
"C54_unique": {
"module": "WeightProps",
"assumptions": "Closed under the global context"
},
"C142_stale_label_refuted": {
"module": "WeightProps",
"assumptions": "Closed under the global context"
},
"C55_completes": {
"module": "WeightProps",
"assumptions": "Closed under the global context"
},
"C143_zero_charge_refuted": {
"module": "WeightProps",
"assumptions": "Closed under the global context"
},
"C144_high_vacuum_refuted": {
"module": "WeightProps",
"assumptions": "Closed under the global context"
},
"C191_features": {
"module": "WriteProps",
"assumptions": "Closed under the global context"
},
"C191_names": {
"module": "WriteProps",
"assumptions": "Closed under the global context"
},
"C191_all": {
"module": "WriteProps",
"assumptions": "Closed under the global context"
},
"C192_union": {
"module": "WriteProps",
"assumptions": "Closed under the global context"
},
"C192_types": {
"module": "WriteProps",
"assumptions": "Closed under the global context"
},
"C193_types": {
"module": "WriteProps",
"assumptions": "Closed under the global context"
},
"C193_frame": {
"module": "WriteProps",
"assumptions": "Closed under the global context"
},
"C194_shared_refuted": {
"module": "WriteProps",
"assumptions": "Closed under the global context"
},
"C195_charge_refuted": {
"module": "WriteProps",
"assumptions": "Closed under the global context"
},
"C196_features": {
"module": "WriteProps",
"assumptions": "Closed under the global context"
},
"C196_types": {
"module": "WriteProps",
"assumptions": "Closed under the global context"
},
"C196_union": {
"module": "WriteProps",
"assumptions": "Closed under the global context"
},
"C197_equal_refuted": {
"module": "WriteProps",
"assumptions": "Closed under the global context"
},
"C197_first": {
"module": "WriteProps",
"assumptions": "Closed under the global context"
},
"C198_atoms": {
"module": "WriteProps",
"assumptions": "Closed under the global context"
},
"C198_all": {
"module": "WriteProps",
"assumptions": "Closed under the global context"
},
"C199_named_refuted": {
"module": "WriteProps",
"assumptions": "Closed under the global context"
},
"C199_temporary": {
"module": "WriteProps",
"assumptions": "Closed under the global context"
},
"C200_removed_refuted": {
"module": "WriteProps",
"assumptions": "Closed under the global context"
},
"C201_text_refuted": {
"module": "WriteProps",
"assumptions": "Closed under the global context"
}
}