-Q theories Verif
theories/AibHist_Model.v
theories/AibHist_Proofs.v
theories/AibHist_Props.v
theories/AibHist_Spec.v
theories/AibMerge_Proofs.v
theories/AibNew_Proofs.v
theories/AibNull_Model.v
theories/AibNull_Proofs.v
theories/AibNull_Props.v
theories/AibNull_Spec.v
theories/AibRun_Proofs.v
theories/Aib_Model.v
theories/Aib_Proofs.v
theories/Aib_Props.v
theories/Aib_Spec.v
theories/AllDist_Model.v
theories/AllDist_Proofs.v
theories/AllDist_Props.v
theories/AllDist_Spec.v
theories/Alldist_Model.v
theories/Alldist_Props.v
theories/Alldist_Spec.v
theories/Base.v
theories/Bins_Model.v
theories/Bins_Proofs.v
theories/Bins_Props.v
theories/Bins_Spec.v
theories/ClusterLife_Model.v
theories/ClusterLife_Proofs.v
theories/ClusterLife_Props.v
theories/ClusterLife_Spec.v
theories/CovdetExt_Model.v
theories/CovdetExt_Proofs.v
theories/CovdetExt_Props.v
theories/CovdetExt_Spec.v
theories/CovdetOri_Model.v
theories/CovdetOri_Proofs.v
theories/CovdetOri_Props.v
theories/CovdetOri_Spec.v
theories/CovdetPatch2_Proofs.v
theories/CovdetPatch_Model.v
theories/CovdetPatch_Proofs.v
theories/CovdetPatch_Props.v
theories/CovdetPatch_Spec.v
theories/Covdet_Model.v
theories/Covdet_Proofs.v
theories/Covdet_Props.v
theories/Covdet_Spec.v
theories/DsiftRun_Proofs.v
theories/DsiftTranspose_Proofs.v
theories/DsiftTranspose_Props.v
theories/DsiftWindow_Proofs.v
theories/Dsift_Model.v
theories/Dsift_Proofs.v
theories/Dsift_Props.v
theories/Dsift_Spec.v
theories/EnumDecode_Model.v
theories/EnumDecode_Props.v
theories/EnumDecode_Spec.v
theories/ErFill_Model.v
theories/ErFill_Proofs.v
theories/ErFill_Props.v
theories/ErFill_Spec.v
theories/FastMath2_Proofs.v
theories/FastMath3_Proofs.v
theories/FastMath_Model.v
theories/FastMath_Proofs.v
theories/FastMath_Props.v
theories/FastMath_Spec.v
theories/FileMeta_Model.v
theories/FileMeta_Props.v
theories/FileMeta_Spec.v
theories/FisherGrad_Proofs.v
theories/Fisher_Model.v
theories/Fisher_Proofs.v
theories/Fisher_Props.v
theories/Fisher_Spec.v
theories/Gauss_Model.v
theories/Gauss_Proofs.v
theories/Gauss_Props.v
theories/Gauss_Spec.v
theories/Getopt_Model.v
theories/Getopt_Proofs.v
theories/Getopt_Props.v
theories/Getopt_Spec.v
theories/GmmEm_Proofs.v
theories/GmmLik_Proofs.v
theories/Gmm_Model.v
theories/Gmm_Proofs.v
theories/Gmm_Props.v
theories/Gmm_Spec.v
theories/Heap_Model.v
theories/Heap_Proofs.v
theories/Heap_Props.v
theories/Heap_Spec.v
theories/HikmArray_Model.v
theories/HikmArray_Proofs.v
theories/HikmArray_Props.v
theories/HikmArray_Spec.v
theories/Hikm_Proofs.v
theories/HogExtract_Proofs.v
theories/HogFlip_Proofs.v
theories/HogRender_Model.v
theories/HogRender_Proofs.v
theories/HogRender_Props.v
theories/HogRender_Spec.v
theories/Hog_Model.v
theories/Hog_Proofs.v
theories/Hog_Props.v
theories/Hog_Spec.v
theories/Homker_Model.v
theories/Homker_Proofs.v
theories/Homker_Props.v
theories/Homker_Spec.v
theories/IHash_Model.v
theories/IHash_Proofs.v
theories/IHash_Props.v
theories/IHash_Spec.v
theories/IkmDist_Proofs.v
theories/IkmElkan_Proofs.v
theories/IkmInit_Proofs.v
theories/IkmMean_Proofs.v
theories/Ikm_Model.v
theories/Ikm_Props.v
theories/Ikm_Spec.v
theories/ImConv_Proofs.v
theories/ImDist_Model.v
theories/ImDist_Proofs.v
theories/ImDist_Props.v
theories/ImDist_Spec.v
theories/ImDisttf_Model.v
theories/ImDisttf_Props.v
theories/ImDisttf_Spec.v
theories/ImGrad_Model.v
theories/ImGrad_Proofs.v
theories/ImGrad_Props.v
theories/ImGrad_Spec.v
theories/ImOp_Model.v
theories/ImOp_Proofs.v
theories/ImOp_Props.v
theories/ImOp_Spec.v
theories/ImTri_Proofs.v
theories/ImWarp_Model.v
theories/ImWarp_Proofs.v
theories/ImWarp_Props.v
theories/ImWarp_Spec.v
theories/Imsmooth_Model.v
theories/Imsmooth_Proofs.v
theories/Imsmooth_Props.v
theories/Imsmooth_Spec.v
theories/IntHist_Model.v
theories/IntHist_Proofs.v
theories/IntHist_Props.v
theories/IntHist_Spec.v
theories/Isqrt_Model.v
theories/Isqrt_Proofs.v
theories/Isqrt_Props.v
theories/Isqrt_Spec.v
theories/KdArray_Model.v
theories/KdArray_Proofs.v
theories/KdArray_Props.v
theories/KdArray_Spec.v
theories/KdBatch_Model.v
theories/KdBatch_Proofs.v
theories/KdBatch_Props.v
theories/KdBatch_Spec.v
theories/KdBounds_Proofs.v
theories/KdBuild_Proofs.v
theories/KdForest_Proofs.v
theories/KdQuery_Proofs.v
theories/KdSearchers_Model.v
theories/KdSearchers_Proofs.v
theories/KdSearchers_Props.v
theories/KdSearchers_Spec.v
theories/KdTree_Model.v
theories/KdTree_Props.v
theories/KdTree_Spec.v
theories/KmeansElkan_Model.v
theories/KmeansElkan_Proofs.v
theories/KmeansEnergy_Proofs.v
theories/KmeansSeed_Proofs.v
theories/KmeansUpdate_Proofs.v
theories/Kmeans_Model.v
theories/Kmeans_Proofs.v
theories/Kmeans_Props.v
theories/Kmeans_Spec.v
theories/Lbp_Model.v
theories/Lbp_Proofs.v
theories/Lbp_Props.v
theories/Lbp_Spec.v
theories/LiopFull_Model.v
theories/LiopFull_Proofs.v
theories/LiopFull_Props.v
theories/LiopFull_Spec.v
theories/LiopInv_Proofs.v
theories/Liop_Model.v
theories/Liop_Proofs.v
theories/Liop_Props.v
theories/Liop_Spec.v
theories/LocalMax_Model.v
theories/LocalMax_Proofs.v
theories/LocalMax_Props.v
theories/LocalMax_Spec.v
theories/Lock_Model.v
theories/Lock_Proofs.v
theories/Lock_Props.v
theories/Loop.v
theories/MexUtil_Model.v
theories/MexUtil_Proofs.v
theories/MexUtil_Props.v
theories/MexUtil_Spec.v
theories/MserExtract_Proofs.v
theories/MserForest_Proofs.v
theories/MserMain_Proofs.v
theories/MserMoments_Proofs.v
theories/MserNbr_Proofs.v
theories/MserSort_Proofs.v
theories/MserTree_Proofs.v
theories/MserTree_Spec.v
theories/MserUnion_Proofs.v
theories/Mser_Model.v
theories/Mser_Props.v
theories/Mser_Spec.v
theories/Order_Spec.v
theories/PgmFloat_Model.v
theories/PgmFloat_Props.v
theories/PgmFloat_Spec.v
theories/Pgm_Model.v
theories/Pgm_Proofs.v
theories/Pgm_Props.v
theories/Pgm_Spec.v
theories/Qsort_Model.v
theories/Qsort_Proofs.v
theories/Qsort_Props.v
theories/Qsort_Spec.v
theories/Quickshift_Model.v
theories/Quickshift_Proofs.v
theories/Quickshift_Props.v
theories/Quickshift_Spec.v
theories/Random_Model.v
theories/Random_Proofs.v
theories/Random_Props.v
theories/Random_Spec.v
theories/Rat.v
theories/RodriguesDeriv_Proofs.v
theories/RodriguesPi_Proofs.v
theories/Rodrigues_Model.v
theories/Rodrigues_Proofs.v
theories/Rodrigues_Props.v
theories/Rodrigues_Spec.v
theories/ScaleBuild_Model.v
theories/ScaleBuild_Proofs.v
theories/ScaleBuild_Props.v
theories/ScaleBuild_Spec.v
theories/Scale_Model.v
theories/Scale_Proofs.v
theories/Scale_Props.v
theories/Scale_Spec.v
theories/Shuffle_Model.v
theories/Shuffle_Proofs.v
theories/Shuffle_Props.v
theories/SiftDescr_Model.v
theories/SiftDescr_Proofs.v
theories/SiftDescr_Props.v
theories/SiftDescr_Spec.v
theories/SiftDetect_Model.v
theories/SiftDetect_Proofs.v
theories/SiftDetect_Props.v
theories/SiftDetect_Spec.v
theories/SiftTranspose_Model.v
theories/SiftTranspose_Proofs.v
theories/SiftTranspose_Props.v
theories/SiftTranspose_Spec.v
theories/Sift_Model.v
theories/Sift_Proofs.v
theories/Sift_Props.v
theories/Sift_Spec.v
theories/SlicClean_Proofs.v
theories/SlicTiles_Proofs.v
theories/SlicTiles_Spec.v
theories/Slic_Model.v
theories/Slic_Props.v
theories/Slic_Spec.v
theories/Str_Model.v
theories/Str_Proofs.v
theories/Str_Props.v
theories/Str_Spec.v
theories/Svd2_Proofs.v
theories/Svd_Model.v
theories/Svd_Proofs.v
theories/Svd_Props.v
theories/Svd_Spec.v
theories/SvmDual_Proofs.v
theories/SvmLog_Model.v
theories/SvmLog_Proofs.v
theories/SvmLog_Props.v
theories/SvmLog_Spec.v
theories/SvmLoss_Proofs.v
theories/SvmRun_Proofs.v
theories/SvmSgd_Proofs.v
theories/Svm_Model.v
theories/Svm_Proofs.v
theories/Svm_Props.v
theories/Svm_Spec.v
theories/Table.v
theories/Thread_Model.v
theories/Thread_Proofs.v
theories/Thread_Props.v
theories/Thread_Spec.v
theories/Twister_Model.v
theories/Twister_Proofs.v
theories/Twister_Props.v
theories/Twister_Spec.v
theories/UbcMatch_Model.v
theories/UbcMatch_Proofs.v
theories/UbcMatch_Props.v
theories/UbcMatch_Spec.v
theories/Varray_Model.v
theories/Varray_Props.v
theories/Varray_Spec.v
theories/VecPairs_Proofs.v
theories/VecReal_Proofs.v
theories/Vec_Model.v
theories/Vec_Proofs.v
theories/Vec_Props.v
theories/Vec_Spec.v
theories/Vlad_Model.v
theories/Vlad_Proofs.v
theories/Vlad_Props.v
theories/Vlad_Spec.v
theories/Word_Spec.v
