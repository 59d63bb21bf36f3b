-Q theories Verif
theories/Agent_Model.v
theories/Agent_Props.v
theories/Arch_Model.v
theories/Arch_Proofs.v
theories/Arch_Props.v
theories/Arch_Props2.v
theories/Arch_Props3.v
theories/Backprop_Gradient.v
theories/Backprop_Model.v
theories/Backprop_Proofs.v
theories/Backprop_Props.v
theories/Backprop_Props2.v
theories/Backprop_Spec.v
theories/Base.v
theories/Batches_Model.v
theories/Batches_Proofs.v
theories/Board_Model.v
theories/Board_Proofs.v
theories/Board_Proofs2.v
theories/Board_Proofs3.v
theories/Board_Props.v
theories/Board_Props2.v
theories/Board_Props3.v
theories/Board_Spec.v
theories/Capture_Inv.v
theories/Capture_Model.v
theories/Capture_Proofs.v
theories/Capture_Props.v
theories/Capture_Rules.v
theories/Capture_Spec.v
theories/Classic_Model.v
theories/Classic_Proofs.v
theories/Classic_Proofs2.v
theories/Classic_Props.v
theories/Classic_Props2.v
theories/Classic_Props3.v
theories/Classic_Spec.v
theories/Classification_Model.v
theories/Classification_Proofs.v
theories/Classification_Props.v
theories/Classification_Spec.v
theories/Cluster_Model.v
theories/Cluster_Proofs.v
theories/Cluster_Proofs2.v
theories/Cluster_Proofs3.v
theories/Cluster_Props.v
theories/Cluster_Spec.v
theories/Coevo_Model.v
theories/Coevo_Proofs.v
theories/Coevo_Proofs2.v
theories/Coevo_Proofs3.v
theories/Coevo_Proofs4.v
theories/Coevo_Proofs5.v
theories/Coevo_Proofs6.v
theories/Coevo_Proofs7.v
theories/Coevo_Props.v
theories/Coevo_Spec.v
theories/Conn_Adjoint.v
theories/Conn_Props.v
theories/Copies_Model.v
theories/Copies_Proofs.v
theories/Copies_Props.v
theories/Copies_Spec.v
theories/Dataset_Model.v
theories/Dataset_Proofs.v
theories/Dataset_Proofs2.v
theories/Dataset_Proofs3.v
theories/Dataset_Props.v
theories/Dataset_Spec.v
theories/Decomp_Model.v
theories/Decomp_Props.v
theories/Descent_Model.v
theories/Descent_Props.v
theories/Dict.v
theories/Distrib_Model.v
theories/Distrib_Proofs.v
theories/Distrib_Proofs2.v
theories/Distrib_Proofs3.v
theories/Distrib_Proofs4.v
theories/Distrib_Proofs5.v
theories/Distrib_Proofs6.v
theories/Distrib_Proofs7.v
theories/Distrib_Props.v
theories/Distrib_Spec.v
theories/Duel_Model.v
theories/Duel_Proofs.v
theories/Duel_Proofs2.v
theories/Duel_Proofs3.v
theories/Duel_Props.v
theories/Duel_Spec.v
theories/Errors_Model.v
theories/Errors_Proofs.v
theories/Errors_Proofs2.v
theories/Errors_Props.v
theories/Errors_Spec.v
theories/EvoTrain_Model.v
theories/EvoTrain_Props.v
theories/EvoTrain_Spec.v
theories/Evolino_Model.v
theories/Evolino_Props.v
theories/Evonet_Model.v
theories/Evonet_Props.v
theories/Evonet_Props2.v
theories/Evonet_Spec.v
theories/Explorers_Model.v
theories/Explorers_Proofs.v
theories/Explorers_Proofs2.v
theories/Explorers_Proofs3.v
theories/Explorers_Props.v
theories/Explorers_Spec.v
theories/FiniteDiff_Model.v
theories/FiniteDiff_Proofs.v
theories/FiniteDiff_Proofs2.v
theories/FiniteDiff_Props.v
theories/FiniteDiff_Spec.v
theories/Flex_Model.v
theories/Flex_Props.v
theories/Flex_Spec.v
theories/Functions_Model.v
theories/Functions_Proofs.v
theories/Functions_Props.v
theories/Functions_Spec.v
theories/GA_Model.v
theories/GA_Props.v
theories/Games_Model.v
theories/Games_Proofs.v
theories/Games_Props.v
theories/Games_Spec.v
theories/Gauss_Model.v
theories/Gauss_Proofs.v
theories/Gauss_Proofs2.v
theories/Gauss_Props.v
theories/Gauss_Props2.v
theories/Gauss_Spec.v
theories/Grid_Model.v
theories/Grid_Proofs.v
theories/Grid_Props.v
theories/Layers_R.v
theories/LinearFA_Model.v
theories/LinearFA_Proofs.v
theories/LinearFA_Proofs2.v
theories/LinearFA_Proofs3.v
theories/LinearFA_Proofs4.v
theories/LinearFA_Proofs5.v
theories/LinearFA_Proofs6.v
theories/LinearFA_Props.v
theories/LinearFA_Spec.v
theories/Lsh_Model.v
theories/Lsh_Props.v
theories/Lstd_Model.v
theories/Lstd_Proofs.v
theories/Lstd_Proofs2.v
theories/Lstd_Props.v
theories/Lstd_Props2.v
theories/Lstd_Spec.v
theories/Lstm_Model.v
theories/Lstm_Proofs.v
theories/Lstm_Props.v
theories/Lstm_Spec.v
theories/Masked_Model.v
theories/Masked_Props.v
theories/Maze_Model.v
theories/Maze_Props.v
theories/Mdlstm_Model.v
theories/Mdlstm_Props.v
theories/Mdrnn_Model.v
theories/Mdrnn_Proofs.v
theories/Mdrnn_Props.v
theories/Mdrnn_Props2.v
theories/Mdrnn_Spec.v
theories/Memetic_Model.v
theories/Memetic_Proofs.v
theories/Memetic_Proofs2.v
theories/Memetic_Props.v
theories/Mixing_Model.v
theories/Mixing_Props.v
theories/Mixture_Model.v
theories/Mixture_Proofs.v
theories/Mixture_Props.v
theories/Mixture_Spec.v
theories/ModelBased_Model.v
theories/ModelBased_Proofs.v
theories/ModelBased_Proofs2.v
theories/ModelBased_Props.v
theories/MooGA_Model.v
theories/MooGA_Props.v
theories/MooGA_Spec.v
theories/Moo_Model.v
theories/Moo_Props.v
theories/Moo_Props2.v
theories/Moo_Spec.v
theories/NestedParams_Model.v
theories/NestedParams_Proofs.v
theories/NestedParams_Proofs2.v
theories/NestedParams_Props.v
theories/NestedParams_Spec.v
theories/Nested_Model.v
theories/Nested_Proofs.v
theories/Nested_Proofs2.v
theories/Nested_Props.v
theories/Nested_Spec.v
theories/Net_Adjoint.v
theories/Net_Backward.v
theories/Net_Events.v
theories/Net_Forget.v
theories/Net_Forward.v
theories/Net_Gradient.v
theories/Net_Gradient2.v
theories/Net_Gradient_Props.v
theories/Net_Model.v
theories/Net_Props.v
theories/Net_Spec.v
theories/Nondom_Crowd.v
theories/Nondom_Model.v
theories/Nondom_Proofs.v
theories/Nondom_Proofs2.v
theories/Nondom_Props.v
theories/Opt_Dir.v
theories/Opt_Model.v
theories/Opt_Proofs.v
theories/Opt_Props.v
theories/Opt_Spec.v
theories/Params_Model.v
theories/Params_Proofs.v
theories/Params_Proofs2.v
theories/Params_Props.v
theories/Params_Spec.v
theories/Pente_Proofs.v
theories/Players_Model.v
theories/Players_Proofs.v
theories/Players_Proofs2.v
theories/Players_Proofs3.v
theories/Players_Proofs4.v
theories/Players_Props.v
theories/Players_Props2.v
theories/Players_Spec.v
theories/Poles_Model.v
theories/Poles_Proofs.v
theories/Poles_Proofs2.v
theories/Poles_Props.v
theories/Poles_Props2.v
theories/Poles_Spec.v
theories/PolicyGrad_Model.v
theories/PolicyGrad_Proofs.v
theories/PolicyGrad_Proofs2.v
theories/PolicyGrad_Proofs3.v
theories/PolicyGrad_Proofs4.v
theories/PolicyGrad_Proofs5.v
theories/PolicyGrad_Props.v
theories/PolicyGrad_Spec.v
theories/Propagate.v
theories/Pso_Model.v
theories/Pso_Proofs.v
theories/Pso_Proofs2.v
theories/Pso_Props.v
theories/Pso_Spec.v
theories/Ranking_Model.v
theories/Ranking_Proofs.v
theories/Ranking_Props.v
theories/Rbm_Model.v
theories/Rbm_Proofs.v
theories/Rbm_Proofs2.v
theories/Rbm_Props.v
theories/Rbm_Spec.v
theories/RingOps.v
theories/Scaling_Model.v
theories/Scaling_Props.v
theories/Search_Model.v
theories/Search_Props.v
theories/Search_Spec.v
theories/Sequential_Model.v
theories/Sequential_Proofs.v
theories/Sequential_Proofs2.v
theories/Sequential_Props.v
theories/Sequential_Spec.v
theories/StableSort.v
theories/Tasks_Model.v
theories/Tasks_Props.v
theories/Tasks_Props2.v
theories/Tasks_Props3.v
theories/Tasks_Props4.v
theories/Tasks_Spec.v
theories/Tools_Model.v
theories/Tools_Props.v
theories/Tools_Props2.v
theories/Tools_Spec.v
theories/Topo_Model.v
theories/Topo_Proofs.v
theories/Topo_Proofs2.v
theories/Topo_Props.v
theories/Topo_Spec.v
theories/Tournament_Model.v
theories/Tournament_Props.v
theories/Training_Model.v
theories/Training_Props.v
theories/Utilities_Model.v
theories/Utilities_Proofs.v
theories/Utilities_Proofs2.v
theories/Utilities_Props.v
theories/Utilities_Spec.v
theories/Value_Model.v
theories/Value_Props.v
theories/Xml_Model.v
theories/Xml_Proofs.v
theories/Xml_Props.v
theories/Xml_Spec.v
