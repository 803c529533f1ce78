-Q theories Verif
theories/AdaptiveRate_Props.v
theories/Backends_Model.v
theories/Backends_Proofs.v
theories/Backends_Props.v
theories/Backends_Spec.v
theories/Calculus.v
theories/Centroid_Props.v
theories/Class_Model.v
theories/Class_Props.v
theories/ComplexCircle_Model.v
theories/ComplexCircle_Props.v
theories/Components.v
theories/Connection.v
theories/Constructors_Model.v
theories/Constructors_Props.v
theories/ConvergenceTR_Props.v
theories/Convergence_Props.v
theories/Diagnostics_Model.v
theories/Diagnostics_Proofs.v
theories/Diagnostics_Props.v
theories/Diagnostics_Spec.v
theories/Dimension.v
theories/Dimension_Matrix.v
theories/Dimension_Props.v
theories/Eigenvector_Model.v
theories/Eigenvector_Proofs.v
theories/Eigenvector_Props.v
theories/Equivariance_Proofs.v
theories/Equivariance_Props.v
theories/Equivariance_Spec.v
theories/Euclid1.v
theories/Euclidean_Model.v
theories/Euclidean_Props.v
theories/ExampleSolutions_Props.v
theories/Examples_Model.v
theories/Examples_Props.v
theories/Expm.v
theories/FixedRank_Model.v
theories/FixedRank_Proofs.v
theories/FixedRank_Props.v
theories/Geometry_Spec.v
theories/Grassmann_Log.v
theories/Grassmann_Model.v
theories/Grassmann_Proofs.v
theories/Grassmann_Props.v
theories/Group_Model.v
theories/Group_Proofs.v
theories/Group_Props.v
theories/Hessian_Props.v
theories/Isometry_Model.v
theories/Isometry_Props.v
theories/Linalg_Exist.v
theories/Linalg_Spec.v
theories/LineSearch_Model.v
theories/LineSearch_Proofs.v
theories/LineSearch_Props.v
theories/LineSearch_Spec.v
theories/LinearRate_Props.v
theories/Logm.v
theories/MCRing.v
theories/Mat_Base.v
theories/Mixture_Model.v
theories/Mixture_Props.v
theories/MoGSearch_Model.v
theories/MoGSearch_Props.v
theories/Multi_Model.v
theories/Multi_Proofs.v
theories/Multi_Props.v
theories/NelderMead_Model.v
theories/NelderMead_Proofs.v
theories/NelderMead_Proofs2.v
theories/NelderMead_Proofs3.v
theories/NelderMead_Props.v
theories/NelderMead_Spec.v
theories/Num_Instances.v
theories/Num_Model.v
theories/Num_Proofs.v
theories/Num_Spec.v
theories/Oblique_Model.v
theories/Oblique_Props.v
theories/Optimizer_Model.v
theories/Optimizer_Proofs.v
theories/Optimizer_Proofs2.v
theories/Optimizer_Proofs3.v
theories/Optimizer_Proofs4.v
theories/Optimizer_Props.v
theories/Optimizer_Spec.v
theories/Packing_Model.v
theories/Packing_Props.v
theories/ParticleSwarm_Model.v
theories/ParticleSwarm_Proofs.v
theories/ParticleSwarm_Proofs2.v
theories/ParticleSwarm_Props.v
theories/ParticleSwarm_Spec.v
theories/Poincare_Model.v
theories/Poincare_Proofs.v
theories/Poincare_Props.v
theories/PosDef_Exp.v
theories/PosDef_Model.v
theories/PosDef_Proofs.v
theories/PosDef_Props.v
theories/PosDef_Special.v
theories/Positive_Model.v
theories/Positive_Props.v
theories/Printer_Model.v
theories/Printer_Props.v
theories/Problem_Instances.v
theories/Problem_Model.v
theories/Problem_Proofs.v
theories/Problem_Props.v
theories/Problem_Spec.v
theories/Product_Model.v
theories/Product_Proofs.v
theories/Product_Proofs2.v
theories/Product_Props.v
theories/Product_Spec.v
theories/Psd_Model.v
theories/Psd_Proofs.v
theories/Psd_Props.v
theories/PyList_Model.v
theories/QuadraticTR_Props.v
theories/Quadratic_Props.v
theories/RandomPoints_Props.v
theories/Rstruct.v
theories/Spectral.v
theories/Sphere_Model.v
theories/Sphere_Proofs.v
theories/Sphere_Props.v
theories/Stack_Proofs.v
theories/Stiefel_Exp.v
theories/Stiefel_Model.v
theories/Stiefel_Proofs.v
theories/Stiefel_Props.v
theories/Symmetry_Matrix.v
theories/Symmetry_Model.v
theories/Symmetry_Proofs.v
theories/Symmetry_Props.v
theories/Symmetry_Spec.v
theories/TangentDraws_Props.v
theories/Testing_Model.v
theories/Testing_Props.v
theories/Transport_Props.v
theories/TrustRegions_Instances.v
theories/TrustRegions_Model.v
theories/TrustRegions_Proofs.v
theories/TrustRegions_Proofs2.v
theories/TrustRegions_Proofs3.v
theories/TrustRegions_Proofs4.v
theories/TrustRegions_Proofs5.v
theories/TrustRegions_Proofs6.v
theories/TrustRegions_Props.v
theories/TrustRegions_Spec.v
