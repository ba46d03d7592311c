{
 "C09": {"note": "vectors, matrices, complex numbers and quaternions"}
}
